(** * C39: the untrimmed offset segments *)
From Coq Require Import ZArith Reals Lra Lia List Bool Arith Permutation.
From Verif Require Import Base Num MathUtils PlineSegment SpatialIndex Polyline Intersects Combine Offset RGeom Spec PropsMath ArcGeom Polar PropsSegment PropsClosest PropsIntr PropsPlineIntr PropsPolyline PropsCoincident PropsPlineIndex.
Import ListNotations.
Open Scope R_scope.

(** one offset segment per segment of the path, in path order *)
Theorem C39_one_per_segment (pl : polyline) (offset : R) : (2 <= length (vertexes pl))%nat ->
  createUntrimmedOffsetSegments pl offset = Ok (map (fun e => offsetSegment offset (fst e) (snd e)) (pathSegs pl)).
Proof.
  intros Hn. unfold createUntrimmedOffsetSegments, pathSegs, size.
  destruct (vertexes pl) as [|v0 [|v1 vs]] eqn:Ev; [cbn in Hn; lia|cbn in Hn; lia|].
  assert (Hg : forall l k, (exists pre, vertexes pl = pre ++ at_ pl k :: l /\ length pre = k) ->
     mmap (fun i => let! a := vget pl (i - 1) in let! b := vget pl i in Ok (offsetSegment offset a b)) (seq (S k) (length l)) =
     Ok (map (fun e => offsetSegment offset (fst e) (snd e)) (openSegs (at_ pl k) l))).
  { induction l as [|a l IH]; intros k (pre & E & Hk); [reflexivity|]. cbn [length seq mmap openSegs map fst snd].
    assert (La : (S k < length (vertexes pl))%nat) by (rewrite E, app_length; cbn [length]; lia).
    assert (Ea : at_ pl (S k) = a). { unfold at_. rewrite E, app_nth2 by lia. replace (S k - length pre)%nat with 1%nat by lia. reflexivity. }
    rewrite !at_get by lia. cbn [bind]. replace (S k - 1)%nat with k by lia. rewrite Ea.
    specialize (IH (S k)). rewrite Ea in IH. rewrite IH; [reflexivity|]. exists (pre ++ [at_ pl k]). rewrite <- app_assoc. cbn [app]. split; [exact E|]. rewrite app_length. cbn [length]. lia. }
  assert (E0 : at_ pl 0 = v0) by (unfold at_; now rewrite Ev).
  assert (G := Hg (v1 :: vs) 0%nat ltac:(exists []; rewrite E0, Ev; split; reflexivity)).
  rewrite E0 in G. replace (length (v0 :: v1 :: vs) - 1)%nat with (length (v1 :: vs)) by (cbn [length]; lia).
  match goal with |- context [bind ?m _] => replace m with (Ok (map (fun e => offsetSegment offset (fst e) (snd e)) (openSegs v0 (v1 :: vs)))) by (symmetry; exact G) end. cbn [bind].
  destruct (isClosed pl); [|now rewrite app_nil_r].
  destruct (exists_last (l := v1 :: vs) ltac:(discriminate)) as (l & x & El).
  assert (E1 : lastVertex pl = Ok x) by (unfold lastVertex; rewrite Ev, El; change (v0 :: l ++ [x]) with ((v0 :: l) ++ [x]); rewrite rev_app_distr; reflexivity).
  rewrite E1, at_get by (rewrite Ev; cbn; lia). cbn [bind]. rewrite E0, map_app. rewrite El, last_last. reflexivity.
Qed.

(** a straight segment is translated by [offset] along its left unit normal *)
Theorem C39_line (v1 v2 : vertex) (offset : R) : isLine v1 -> pos v1 <> pos v2 ->
  let s := offsetSegment offset v1 v2 in
  collapsedArc s = false /\ origV2Pos s = pos v2 /\ bulge (osV1 s) = bulge v1 /\ bulge (osV2 s) = bulge v2 /\
  exists nx ny,
    nx * nx + ny * ny = 1 /\
    nx * (vx (pos v2) - vx (pos v1)) + ny * (vy (pos v2) - vy (pos v1)) = 0 /\
    0 < (vx (pos v2) - vx (pos v1)) * ny - (vy (pos v2) - vy (pos v1)) * nx /\
    (forall t q q', segPoint v1 v2 t q -> segPoint (osV1 s) (osV2 s) t q' -> q' = mkV (vx q + offset * nx) (vy q + offset * ny) /\ dist q q' = Rabs offset) /\
    (forall t t' q q', segPoint v1 v2 t q -> segPoint (osV1 s) (osV2 s) t' q' -> Rabs offset <= dist q q').
Proof.
  intros L Hne s. unfold s, offsetSegment. rewrite (proj2 (bulgeIsZero_R v1) L). unfold offsetLine. cbn [collapsedArc origV2Pos osV1 osV2 bulge pos].
  repeat (split; [reflexivity|]).
  set (dx := vx (pos v2) - vx (pos v1)). set (dy := vy (pos v2) - vy (pos v1)).
  assert (Hp : 0 < dx * dx + dy * dy) by (apply sumsq_pos, vec_ne, Hne).
  set (len := sqrt (dx * dx + dy * dy)). assert (Hl : 0 < len) by (apply sqrt_lt_R0; lra). assert (Hll : len * len = dx * dx + dy * dy) by (apply sqrt_sqrt; lra).
  assert (Hdl : dist (pos v1) (pos v2) = len) by (apply dist_eq; [lra|]; rewrite Hll; unfold dx, dy; ring).
  assert (En : unitPerp (vsub (pos v2) (pos v1)) = mkV (- dy / len) (dx / len)).
  { unfold unitPerp, normalize, vdiv, vsub, dot. rcbn. fold dx dy.
    replace (sqrt (- dy * - dy + dx * dx)) with len by (unfold len; f_equal; ring).
    assert (Reqb len 0 = false) as -> by (apply Reqb_false; lra). cbn [negb vx vy]. apply vec_eq; cbn [vx vy]; rfield; lra. }
  rewrite En. exists (- dy / len), (dx / len).
  assert (Hn : - dy / len * (- dy / len) + dx / len * (dx / len) = 1).
  { replace (- dy / len * (- dy / len) + dx / len * (dx / len)) with ((dx * dx + dy * dy) / (len * len)) by (field; lra). rewrite Hll. field. lra. }
  split; [exact Hn|].
  split. { field. lra. }
  split. { replace (dx * (dx / len) - dy * (- dy / len)) with ((dx * dx + dy * dy) / len) by (field; lra). apply Rdiv_lt_0_compat; lra. }
  set (nx := - dy / len) in *. set (ny := dx / len) in *.
  assert (Hperp : nx * dx + ny * dy = 0) by (unfold nx, ny; field; lra).
  unfold vadd, vscale. rcbn.
  assert (Both : forall t t' q q', segPoint v1 v2 t q -> segPoint (mkVtx (mkV (vx (pos v1) + nx * offset) (vy (pos v1) + ny * offset)) (bulge v1)) (mkVtx (mkV (vx (pos v2) + nx * offset) (vy (pos v2) + ny * offset)) (bulge v2)) t' q' ->
    vx q' = vx q + (t' - t) * dx + offset * nx /\ vy q' = vy q + (t' - t) * dy + offset * ny).
  { intros t t' q q' H1 H2. apply segPoint_line in H1; [|exact L]. apply segPoint_line in H2; [|exact L]. subst q q'. unfold lerp. cbn [pos vx vy]. unfold dx, dy. split; rring. }
  split.
  - intros t q q' H1 H2. destruct (Both t t q q' H1 H2) as [E1 E2]. split.
    + apply vec_eq; cbn [vx vy]; lra.
    + apply dist_eq; [apply Rabs_pos|]. rewrite E1, E2. rewrite <- Rabs_mult, Rabs_pos_eq by apply sq_nonneg.
      replace ((vx q - (vx q + (t - t) * dx + offset * nx)) * (vx q - (vx q + (t - t) * dx + offset * nx)) + (vy q - (vy q + (t - t) * dy + offset * ny)) * (vy q - (vy q + (t - t) * dy + offset * ny))) with (offset * offset * (nx * nx + ny * ny)) by ring.
      rewrite Hn. ring.
  - intros t t' q q' H1 H2. destruct (Both t t' q q' H1 H2) as [E1 E2].
    assert (Hd : Rabs offset * Rabs offset <= dist q q' * dist q q').
    { rewrite dist_sq, E1, E2, <- Rabs_mult, Rabs_pos_eq by apply sq_nonneg. set (u := t' - t).
      replace ((vx q - (vx q + u * dx + offset * nx)) * (vx q - (vx q + u * dx + offset * nx)) + (vy q - (vy q + u * dy + offset * ny)) * (vy q - (vy q + u * dy + offset * ny)))
        with (offset * offset * (nx * nx + ny * ny) + (u * u) * (dx * dx + dy * dy) + 2 * u * offset * (nx * dx + ny * dy)) by ring.
      rewrite Hn, Hperp. assert (0 <= u * u * (dx * dx + dy * dy)) by (apply Rmult_le_pos; [apply sq_nonneg|lra]). lra. }
    pose proof (PropsClosest.dist_nonneg q q'). pose proof (Rabs_pos offset). nra.
Qed.

(** a straight segment of length zero stays where it is, whatever the distance *)
Theorem C39_line_degenerate (v1 v2 : vertex) (offset : R) : isLine v1 -> pos v1 = pos v2 ->
  let s := offsetSegment offset v1 v2 in
  collapsedArc s = false /\ origV2Pos s = pos v2 /\ osV1 s = v1 /\ osV2 s = v2.
Proof.
  intros L E s. unfold s, offsetSegment. rewrite (proj2 (bulgeIsZero_R v1) L). unfold offsetLine. cbn [collapsedArc origV2Pos osV1 osV2].
  assert (Z : vscale offset (unitPerp (vsub (pos v2) (pos v1))) = mkV 0 0).
  { rewrite E. unfold unitPerp, normalize, vdiv, vsub, vscale, dot. rcbn.
    match goal with |- context [Reqb (sqrt ?e) _] => replace e with 0 by ring end. rewrite sqrt_0.
    match goal with |- context [Reqb 0 ?z] => assert (Q : Reqb 0 z = true) by (apply Reqb_spec; field); rewrite Q end. cbn [negb vx vy]. apply vec_eq; cbn [vx vy]; rcbn; field. }
  rewrite Z. destruct v1 as [[x1 y1] b1], v2 as [[x2 y2] b2]. unfold vadd. cbn [pos bulge vx vy].
  split; [reflexivity|]. split; [reflexivity|]. rcbn. split; f_equal; apply vec_eq; rcbn; ring.
Qed.

(** the point on the ray from c through q at k times the distance *)
Definition scaleAbout (c : vec) (k : R) (q : vec) : vec := mkV (vx c + k * (vx q - vx c)) (vy c + k * (vy q - vy c)).

Lemma rot_scale c k th p : rot c th (scaleAbout c k p) = scaleAbout c k (rot c th p).
Proof. unfold rot, scaleAbout. cbn [vx vy]. apply vec_eq; cbn [vx vy]; rring. Qed.

Lemma dist_scale c k p : dist c (scaleAbout c k p) = Rabs k * dist c p.
Proof.
  apply dist_eq; [apply Rmult_le_pos; [apply Rabs_pos|apply PropsClosest.dist_nonneg]|].
  replace (Rabs k * dist c p * (Rabs k * dist c p)) with ((Rabs k * Rabs k) * (dist c p * dist c p)) by ring.
  rewrite dist_sq, <- Rabs_mult, Rabs_pos_eq by apply sq_nonneg. unfold scaleAbout. cbn [vx vy]. ring.
Qed.

Lemma dist_scale' c k p : dist p (scaleAbout c k p) = Rabs (k - 1) * dist c p.
Proof.
  apply dist_eq; [apply Rmult_le_pos; [apply Rabs_pos|apply PropsClosest.dist_nonneg]|].
  replace (Rabs (k - 1) * dist c p * (Rabs (k - 1) * dist c p)) with ((Rabs (k - 1) * Rabs (k - 1)) * (dist c p * dist c p)) by ring.
  rewrite dist_sq, <- Rabs_mult, Rabs_pos_eq by apply sq_nonneg. unfold scaleAbout. cbn [vx vy]. ring.
Qed.

(** an arc becomes the concentric arc with the same sweep whose radius is smaller by the offset when the centre is to the left (positive
    bulge), larger when it is to the right; when that radius is below 1e-8 the segment is flagged as collapsed and joins the two moved end points
    by a line *)
Theorem C39_arc (v1 v2 : vertex) (offset : R) : ~ isLine v1 -> pos v1 <> pos v2 ->
  let s := offsetSegment offset v1 v2 in
  exists c, arcCentre (pos v1) (pos v2) (bulge v1) c /\
  let r := dist c (pos v1) in
  let r' := if Rlt_dec 0 (bulge v1) then r - offset else r + offset in
  0 < r /\ origV2Pos s = pos v2 /\ bulge (osV2 s) = bulge v2 /\
  pos (osV1 s) = scaleAbout c (r' / r) (pos v1) /\ pos (osV2 s) = scaleAbout c (r' / r) (pos v2) /\
  (1 / 100000000 <= r' ->
     collapsedArc s = false /\ bulge (osV1 s) = bulge v1 /\
     (forall t q q', segPoint v1 v2 t q -> segPoint (osV1 s) (osV2 s) t q' -> q' = scaleAbout c (r' / r) q /\ dist c q = r /\ dist c q' = r' /\ dist q q' = Rabs offset) /\
     (forall t t' q q', segPoint v1 v2 t q -> segPoint (osV1 s) (osV2 s) t' q' -> Rabs offset <= dist q q')) /\
  (r' < 1 / 100000000 -> collapsedArc s = true /\ bulge (osV1 s) = 0).
Proof.
  intros Hl Hne s. pose proof (notLine_ne _ Hl) as Hb. set (c := ctr (pos v1) (pos v2) (bulge v1)). exists c. split; [now apply ctr_spec|].
  intros r r'.
  assert (Hr : 0 < r) by (unfold r; pose proof (radius_pos v1 v2 Hb Hne) as R; pose proof (dist_ctr v1 v2 Hb Hne) as E; unfold r, c; lra).
  assert (Er : radius (arcRadiusAndCenter v1 v2) = r) by (unfold r, c; now rewrite dist_ctr).
  assert (Ec : center (arcRadiusAndCenter v1 v2) = c) by (now apply center_R).
  assert (Er2 : dist c (pos v2) = r) by (unfold r; rewrite <- (dist_rot c (sweep (bulge v1)) (pos v1)); f_equal; symmetry; apply (ctr_spec (pos v1) (pos v2) _ Hb)).
  set (offs := if bulgeIsNeg v1 then offset else - offset).
  assert (Eo : r + offs = r').
  { unfold offs, r', bulgeIsNeg. rcbn. destruct (Rltb (bulge v1) 0) eqn:E; rbool; destruct (Rlt_dec 0 (bulge v1)); lra. }
  assert (Nrm : forall p, dist c p = r -> normalize (vsub p c) = mkV ((vx p - vx c) / r) ((vy p - vy c) / r)).
  { intros p Hp. unfold normalize, vdiv, vsub, dot. rcbn.
    assert (E : sqrt ((vx p - vx c) * (vx p - vx c) + (vy p - vy c) * (vy p - vy c)) = r) by (rewrite <- Hp; unfold dist; f_equal; ring).
    rewrite E. assert (Reqb r 0 = false) as -> by (apply Reqb_false; lra). cbn [negb]. apply vec_eq; cbn [vx vy]; rfield; lra. }
  assert (Sc : forall p, dist c p = r -> vadd (vscale offs (normalize (vsub p c))) p = scaleAbout c (r' / r) p).
  { intros p Hp. rewrite (Nrm p Hp), <- Eo. unfold vadd, vscale, scaleAbout. rcbn. apply vec_eq; cbn [vx vy]; rfield; lra. }
  assert (Es : s = if Rltb r' (1 / 100000000) then mkOS (mkVtx (scaleAbout c (r' / r) (pos v1)) 0) (mkVtx (scaleAbout c (r' / r) (pos v2)) (bulge v2)) (pos v2) true
                   else mkOS (mkVtx (scaleAbout c (r' / r) (pos v1)) (bulge v1)) (mkVtx (scaleAbout c (r' / r) (pos v2)) (bulge v2)) (pos v2) false).
  { unfold s, offsetSegment. rewrite (proj2 (bulgeIsZero_false v1) Hl). unfold offsetArc. rewrite Ec, Er. change (topp offset) with (- offset). fold offs.
    match goal with |- context [tltb ?x realThreshold] => replace x with r' by (symmetry; exact Eo) end.
    pose proof (Sc (pos v1) eq_refl) as S1. pose proof (Sc (pos v2) Er2) as S2.
    repeat match goal with |- context [vadd ?x (pos v1)] => replace (vadd x (pos v1)) with (scaleAbout c (r' / r) (pos v1)) by (symmetry; exact S1) end.
    repeat match goal with |- context [vadd ?x (pos v2)] => replace (vadd x (pos v2)) with (scaleAbout c (r' / r) (pos v2)) by (symmetry; exact S2) end.
    rcbn. reflexivity. }
  rewrite Es. split; [auto|]. split; [destruct (Rltb r' _); reflexivity|]. split; [destruct (Rltb r' _); reflexivity|].
  split; [destruct (Rltb r' _); reflexivity|]. split; [destruct (Rltb r' _); reflexivity|]. split.
  - intros Hge. assert (Rltb r' (1 / 100000000) = false) as -> by (apply Rltb_false; lra). cbn [collapsedArc osV1 osV2 bulge pos].
    split; [reflexivity|]. split; [reflexivity|].
    assert (Abs : Rabs (r' / r - 1) * r = Rabs offset).
    { replace (r' / r - 1) with (offs / r) by (rewrite <- Eo; field; lra). rewrite <- (Rabs_pos_eq r) at 2 by lra. rewrite <- Rabs_mult.
      replace (offs / r * r) with offs by (field; lra). unfold offs. destruct (bulgeIsNeg v1); [reflexivity|apply Rabs_Ropp]. }
    assert (Pos : forall t q, segPoint v1 v2 t q -> dist c q = r).
    { intros t q H. apply (segPoint_arc _ _ _ _ Hl) in H. fold c in H. rewrite H. apply dist_rot. }
    assert (New : forall t q', segPoint (mkVtx (scaleAbout c (r' / r) (pos v1)) (bulge v1)) (mkVtx (scaleAbout c (r' / r) (pos v2)) (bulge v2)) t q' -> q' = scaleAbout c (r' / r) (rot c (t * sweep (bulge v1)) (pos v1))).
    { intros t q' [[H _]|[_ (c' & Hc' & ->)]]; [contradiction|]. cbn [pos bulge] in *.
      assert (c' = c).
      { rewrite (ctr_unique _ _ _ _ Hb Hc'). symmetry. apply (ctr_unique _ _ _ _ Hb). unfold arcCentre. rewrite rot_scale. f_equal. apply (ctr_spec (pos v1) (pos v2) _ Hb). }
      subst c'. apply rot_scale. }
    assert (Dk : Rabs (r' / r) * r = r').
    { rewrite Rabs_pos_eq; [field; lra|]. apply Rmult_le_pos; [lra|]. left. now apply Rinv_0_lt_compat. }
    split.
    + intros t q q' H1 H2. pose proof (Pos t q H1) as Hd. apply (segPoint_arc _ _ _ _ Hl) in H1. fold c in H1. apply New in H2. rewrite <- H1 in H2.
      split; [exact H2|]. split; [exact Hd|]. rewrite H2, dist_scale, dist_scale', Hd. split; [exact Dk|exact Abs].
    + intros t t' q q' H1 H2. pose proof (Pos t q H1) as Hd. apply New in H2.
      assert (Hd' : dist c q' = r') by (rewrite H2, dist_scale, dist_rot; exact Dk).
      assert (Ho : Rabs offset = Rabs (r' - r)).
      { rewrite <- Eo. replace (r + offs - r) with offs by ring. unfold offs. destruct (bulgeIsNeg v1); [reflexivity|now rewrite Rabs_Ropp]. }
      rewrite Ho. pose proof (dist_triangle c q q') as T1. pose proof (dist_triangle c q' q) as T2. rewrite (dist_sym q' q) in T2. rewrite Hd, Hd' in *.
      unfold Rabs. destruct (Rcase_abs _); lra.
  - intros Hlt. assert (Rltb r' (1 / 100000000) = true) as -> by (apply Rltb_spec; lra). split; reflexivity.
Qed.

(** non-vacuity: a half circle offset inwards and past its centre *)
Example C39_half_circle : let v1 := mkVertex 0 0 1 in let v2 := mkVertex 2 0 0 in ~ isLine v1 /\ pos v1 <> pos v2.
Proof. intros v1 v2. split; [unfold isLine, v1, mkVertex; cbn [bulge]; rewrite Rabs_R1; lra|]. unfold v1, v2, mkVertex. cbn [pos]. intros E. injection E. lra. Qed.
