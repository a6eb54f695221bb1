(** Joins of the raw offset where an arc is involved: which point they are made at and what is appended (C62). *)
From Coq Require Import ZArith Reals Lra Lia List Bool Arith Permutation.
From Verif Require Import Base Num MathUtils PlineSegment SpatialIndex Polyline Intersects Combine Offset RGeom Spec PropsMath ArcGeom Polar PropsSegment PropsClosest PropsIntr PropsPlineIntr PropsPolyline PropsCoincident PropsPlineIndex PropsSlices PropsRegion PropsPieces PropsOffsetSegs PropsOffsetSlices PropsRawOffset PropsCombine PropsJoins PropsTrims.
Import ListNotations.
Open Scope R_scope.

(** ** Specification *)

(** the point the line through [p0] and [p1] is joined with the circle ([c], [r]): as a parameter of the line; of two
    crossings the one nearer to [k]; near tangency the foot of the centre *)
Definition meetLC (p0 p1 c : vec) (r : R) (k : vec) (o : option R) : Prop :=
  match o with
  | None => (eps <= len2 p0 p1 /\ forall t, r < dist c (lerp p0 p1 t)) \/
            (len2 p0 p1 < eps /\ eps <= Rabs (power c r p0))
  | Some s =>
      (dist c (lerp p0 p1 s) = r /\
         forall t, dist c (lerp p0 p1 t) = r -> dist k (lerp p0 p1 s) <= dist k (lerp p0 p1 t)) \/
      ((forall t, dist c (lerp p0 p1 s) <= dist c (lerp p0 p1 t)) /\
         4 * len2 p0 p1 * Rabs (power c r (lerp p0 p1 s)) < eps) \/
      (len2 p0 p1 < eps /\ s = 0 /\ Rabs (power c r p0) < eps)
  end.

(** the point two circles are joined at: of two common points the one nearer to [k] *)
Definition meetCC (c1 : vec) (r1 : R) (c2 : vec) (r2 : R) (k : vec) (o : option vec) : Prop :=
  match o with
  | None => forall q, ~ onBoth c1 r1 c2 r2 q
  | Some p =>
      (onBoth c1 r1 c2 r2 p /\ forall q, onBoth c1 r1 c2 r2 q ->
         dist k p <= dist k q \/ (Rabs (vx p - vx q) < eps /\ Rabs (vy p - vy q) < eps)) \/
      ((forall q, ~ onBoth c1 r1 c2 r2 q) /\
         0 <= dist c1 p - r1 <= eps * Rmax 1 ((r1 + r2) / dist c1 c2) /\
         0 <= dist c2 p - r2 <= eps * Rmax 1 ((r1 + r2) / dist c1 c2))
  end.

(** the vertices [l] appended to [r] one after the other *)
Definition appended (r : polyline) (l : list vertex) : polyline := fold_left addOrReplaceIfSamePos l r.

(** a round join: the end of the first segment, with the bulge of the turn about the corner, then the start of the second *)
Definition roundJoin (ccw : bool) (s1 s2 : offsetSeg) (r r' : polyline) : Prop :=
  exists b, r' = appended r [mkVtx (pos (osV2 s1)) b; osV1 s2] /\
    forall th, pos (osV2 s1) <> origV2Pos s1 -> turnsTo (origV2Pos s1) (pos (osV2 s1)) (pos (osV1 s2)) th ccw -> sweep b = th.

(** a straight link *)
Definition linkJoin (s1 s2 : offsetSeg) (r r' : polyline) : Prop :=
  r' = appended r [mkVtx (pos (osV2 s1)) 0; osV1 s2].

(** [w] starts at [q] the rest of the arc u1 u2 about [c] *)
Definition restFrom (u1 u2 : vertex) (c q : vec) (w : vertex) : Prop :=
  pos w = q /\ forall t, 0 <= t < 1 -> q = rot c (t * sweep (bulge u1)) (pos u1) ->
    sweep (bulge w) = (1 - t) * sweep (bulge u1) /\ arcCentre q (pos u2) (bulge w) c.

(** [r1] is [r] with its last vertex [w], when it starts an arc about [c] that runs to [e], made to run to [q] only *)
Definition cutBack (c : vec) (e : vec) (q : vec) (r r1 : polyline) : Prop :=
  exists l w b, vertexes r = l ++ [w] /\ r1 = mkPline (isClosed r) (l ++ [mkVtx (pos w) b]) /\
    (isLine w -> b = bulge w) /\ (fuzzyEqual (pos w) e eps = true -> b = bulge w) /\
    (~ isLine w -> Rabs (bulge w) <= 1 -> fuzzyEqual (pos w) e eps = false -> arcCentre (pos w) e (bulge w) c ->
     forall t, 0 < t <= 1 -> q = rot c (t * sweep (bulge w)) (pos w) -> sweep b = t * sweep (bulge w) /\ arcCentre (pos w) q b c).

(** ** Line and circle, circle and circle *)
Lemma dsq p q : distSquared p q = dist p q * dist p q.
Proof. rewrite dist_sq. unfold distSquared, dot, vsub. rcbn. rring. Qed.

Lemma nearer (k a b : vec) : Rltb (distSquared a k) (distSquared b k) = true -> dist k a <= dist k b.
Proof. intros E. rbool. rewrite !dsq in E. rewrite (dist_sym k a), (dist_sym k b). apply dist_le. lra. Qed.
Lemma nearer' (k a b : vec) : Rltb (distSquared a k) (distSquared b k) = false -> dist k b <= dist k a.
Proof. intros E. rbool. rewrite !dsq in E. rewrite (dist_sym k a), (dist_sym k b). apply dist_le. lra. Qed.

Definition pickLC (p0 p1 c : vec) (r : R) (k : vec) : option R :=
  match intrLineSeg2Circle2 p0 p1 r c with
  | LC0 => None
  | LC1 s => Some s
  | LC2 s0 s1 => Some (if Rltb (distSquared (lerp p0 p1 s0) k) (distSquared (lerp p0 p1 s1) k) then s0 else s1)
  end.

Lemma pickLC_meet p0 p1 c r k : 0 <= r -> meetLC p0 p1 c r k (pickLC p0 p1 c r k).
Proof.
  intros Hr. pose proof (C18_line_circle p0 p1 c r Hr) as K. unfold pickLC. destruct (intrLineSeg2Circle2 p0 p1 r c) as [|s|s0 s1]; cbn [meetLC].
  - exact K.
  - tauto.
  - destruct K as (_ & _ & K). destruct (Rltb _ _) eqn:E.
    + left. split; [apply K; auto|]. intros t Ht. apply K in Ht. destruct Ht as [->| ->]; [lra|]. now apply nearer.
    + left. split; [apply K; auto|]. intros t Ht. apply K in Ht. destruct Ht as [->| ->]; [|lra]. now apply nearer'.
Qed.

Lemma round_of ccw s1 s2 e r : pos e = pos (osV1 s2) -> e = osV1 s2 -> roundJoin ccw s1 s2 r (connectUsingArc ccw s1 s2 e r).
Proof.
  intros _ ->. exists (bulgeForConnection (origV2Pos s1) (pos (osV2 s1)) (pos (osV1 s2)) ccw). split; [reflexivity|].
  intros th Hn Ht. rewrite (connection_bulge _ _ _ th ccw Hn Ht). apply tan_quarter. destruct Ht as [_ Ht]. pose proof PI_RGT_0. destruct ccw; lra.
Qed.

Lemma rest_of u1 u2 c q : okArc u1 u2 -> arcCentre (pos u1) (pos u2) (bulge u1) c -> restFrom u1 u2 c q (trimmedArcVertex c u1 u2 q).
Proof.
  intros (Hl & Hb & Hn) Hc. split; [unfold trimmedArcVertex; destruct (Bool.eqb _ _); reflexivity|].
  intros t Ht ->. destruct (C51_trim_start u1 u2 c t Hl Hb Hn Hc Ht) as (_ & A & B & _). auto.
Qed.

Lemma setBulge_same (w : vertex) : mkVtx (pos w) (bulge w) = w.
Proof. now destruct w. Qed.

Lemma cut_of c v2 q r : vertexes r <> [] -> exists r1, trimPrev c v2 q r = Ok r1 /\ cutBack c (pos v2) q r r1.
Proof.
  intros Hn. destruct (get_last r Hn) as (l & w & Ev & El & Es).
  assert (Keep : r = mkPline (isClosed r) (l ++ [mkVtx (pos w) (bulge w)])) by (rewrite setBulge_same, <- Ev; now destruct r).
  assert (X : exists b, trimPrev c v2 q r = Ok (mkPline (isClosed r) (l ++ [mkVtx (pos w) b])) /\
     (isLine w -> b = bulge w) /\ (fuzzyEqual (pos w) (pos v2) eps = true -> b = bulge w)).
  { unfold trimPrev. rewrite El. cbn [bind]. rewrite thr_R. change (1 / 100000000) with eps.
    destruct (bulgeIsZero w) eqn:Z; cbn [negb andb]; [exists (bulge w); split; [now rewrite <- Keep|auto]|].
    apply bulgeIsZero_false in Z.
    destruct (fuzzyEqual (pos w) (pos v2) eps) eqn:F; cbn [negb andb]; [exists (bulge w); split; [now rewrite <- Keep|auto]|].
    destruct (Bool.eqb _ _).
    - rewrite Es. eexists. split; [reflexivity|]. split; [contradiction|discriminate].
    - exists (bulge w). split; [now rewrite <- Keep|auto]. }
  destruct X as (b & E & B1 & B2). exists (mkPline (isClosed r) (l ++ [mkVtx (pos w) b])). split; [exact E|].
  exists l, w, b. split; [auto|]. split; [auto|]. split; [auto|]. split; [auto|]. intros Hl Hb Hf Hc t Ht Eq. subst q.
  destruct (C51_trim_end r l w v2 c t Ev Hl Hb Hf Hc Ht) as (b' & E' & Sw & Ac & _).
  assert (b' = b) as ->; [|auto]. rewrite E in E'. injection E' as E'. apply app_inj_tail in E'. destruct E' as [_ E']. now injection E' as ->.
Qed.

Lemma within_false v1 v2 p : okArc v1 v2 ->
  pointWithinArcSweepAngle (center (arcRadiusAndCenter v1 v2)) (pos v1) (pos v2) (bulge v1) p = false <->
  ~ inSector eps v1 v2 (ctr (pos v1) (pos v2) (bulge v1)) p.
Proof. intros H. rewrite <- (within_iff v1 v2 p H). destruct (pointWithinArcSweepAngle _ _ _ _ _); split; congruence. Qed.

Lemma false_R t : falseIntersect t = false <-> 0 <= t <= 1.
Proof. unfold falseIntersect. rcbn. rewrite orb_false_iff, !Rltb_false. lra. Qed.

Lemma arc_data u1 u2 c : okArc u1 u2 -> arcCentre (pos u1) (pos u2) (bulge u1) c ->
  c = ctr (pos u1) (pos u2) (bulge u1) /\ center (arcRadiusAndCenter u1 u2) = c /\ radius (arcRadiusAndCenter u1 u2) = dist c (pos u1) /\ 0 <= dist c (pos u1).
Proof.
  intros (Hl & Hb & Hn) Hc. pose proof (notLine_ne _ Hl) as Nb. assert (Ec : c = ctr (pos u1) (pos u2) (bulge u1)) by (now apply ctr_unique).
  split; [exact Ec|]. split; [rewrite Ec; now apply center_R|]. split; [|apply sqrt_pos].
  destruct (C12_arc_centre_radius u1 u2 Nb Hn) as (_ & H & _). rewrite (center_R _ _ Nb Hn), <- Ec in H. auto.
Qed.

(** ** C62 *)

(** from a straight segment into an arc *)
Theorem C62_line_arc (ccw : bool) (s1 s2 : offsetSeg) (c : vec) (r : polyline) :
  let v1 := osV1 s1 in let v2 := osV2 s1 in let u1 := osV1 s2 in let u2 := osV2 s2 in
  isLine v1 -> okArc u1 u2 -> arcCentre (pos u1) (pos u2) (bulge u1) c ->
  exists o r', joinSegs ccw s1 s2 r = Ok r' /\ meetLC (pos v1) (pos v2) c (dist c (pos u1)) (origV2Pos s1) o /\
    match o with
    | None => roundJoin ccw s1 s2 r r'
    | Some s =>
        let q := lerp (pos v1) (pos v2) s in
        (0 <= s <= 1 -> inSector eps u1 u2 c q -> exists w, restFrom u1 u2 c q w /\ r' = appended r [w]) /\
        (1 < s -> ~ inSector eps u1 u2 c q -> roundJoin ccw s1 s2 r r') /\
        (s < 0 \/ (1 < s /\ inSector eps u1 u2 c q) \/ (s <= 1 /\ ~ inSector eps u1 u2 c q) ->
           if collapsedArc s1 then roundJoin ccw s1 s2 r r' else linkJoin s1 s2 r r')
    end.
Proof.
  intros v1 v2 u1 u2 Hl Ha Hc. destruct (arc_data _ _ _ Ha Hc) as (Ec & Ecc & Er & Hr).
  assert (Hl2 : bulgeIsZero u1 = false) by (apply bulgeIsZero_false; apply Ha). apply bulgeIsZero_R in Hl.
  set (k := origV2Pos s1). exists (pickLC (pos v1) (pos v2) c (dist c (pos u1)) k), (lineToArcJoin s1 s2 ccw r).
  split; [unfold joinSegs; fold v1 u1; rewrite Hl, Hl2; reflexivity|]. split; [now apply pickLC_meet|].
  assert (P : forall s, let q := lerp (pos v1) (pos v2) s in forall r',
    r' = (if negb (falseIntersect s) && pointWithinArcSweepAngle (center (arcRadiusAndCenter u1 u2)) (pos u1) (pos u2) (bulge u1) (pointFromParametric (pos v1) (pos v2) s)
      then addOrReplaceIfSamePos r (trimmedArcVertex (center (arcRadiusAndCenter u1 u2)) u1 u2 (pointFromParametric (pos v1) (pos v2) s))
      else if Rltb 1 s && negb (pointWithinArcSweepAngle (center (arcRadiusAndCenter u1 u2)) (pos u1) (pos u2) (bulge u1) (pointFromParametric (pos v1) (pos v2) s)) then connectUsingArc ccw s1 s2 u1 r
      else if collapsedArc s1 then connectUsingArc ccw s1 s2 u1 r
      else addOrReplaceIfSamePos (addOrReplaceIfSamePos r (mkVtx (pos v2) 0)) u1) ->
    (0 <= s <= 1 -> inSector eps u1 u2 c q -> exists w, restFrom u1 u2 c q w /\ r' = appended r [w]) /\
    (1 < s -> ~ inSector eps u1 u2 c q -> roundJoin ccw s1 s2 r r') /\
    (s < 0 \/ (1 < s /\ inSector eps u1 u2 c q) \/ (s <= 1 /\ ~ inSector eps u1 u2 c q) ->
       if collapsedArc s1 then roundJoin ccw s1 s2 r r' else linkJoin s1 s2 r r')).
  { intros s q r'. rewrite pfp_lerp. fold q. pose proof (round_of ccw s1 s2 u1 r eq_refl eq_refl) as Rd.
    assert (Lk : linkJoin s1 s2 r (addOrReplaceIfSamePos (addOrReplaceIfSamePos r (mkVtx (pos v2) 0)) u1)) by reflexivity.
    assert (Wt : pointWithinArcSweepAngle (center (arcRadiusAndCenter u1 u2)) (pos u1) (pos u2) (bulge u1) q = true <-> inSector eps u1 u2 c q).
    { rewrite (within_iff u1 u2 q Ha), <- Ec. reflexivity. }
    destruct (pointWithinArcSweepAngle _ _ _ _ q).
    - assert (I : inSector eps u1 u2 c q) by (apply Wt; reflexivity). rewrite andb_true_r, andb_false_r. destruct (falseIntersect s) eqn:F; cbn [negb].
      + assert (~ 0 <= s <= 1) by (rewrite <- false_R; congruence). intros ->. split; [contradiction|]. split; [contradiction|]. intros _. destruct (collapsedArc s1); auto.
      + apply false_R in F. intros ->. split.
        * intros _ _. exists (trimmedArcVertex c u1 u2 q). split; [now apply rest_of|]. now rewrite Ecc.
        * split; [contradiction|]. intros [X|[[X _]|[_ X]]]; [lra|lra|contradiction].
    - assert (I : ~ inSector eps u1 u2 c q) by (rewrite <- Wt; discriminate). rewrite andb_false_r, andb_true_r. intros ->. split; [contradiction|]. split.
      + intros L _. rewrite (proj2 (Rltb_spec _ _) L). exact Rd.
      + intros X. rewrite (proj2 (Rltb_false 1 s)) by (destruct X as [X|[[_ X]|[X _]]]; [lra|contradiction|lra]). destruct (collapsedArc s1); auto. }
  pose proof (round_of ccw s1 s2 u1 r eq_refl eq_refl) as Rd.
  unfold pickLC. unfold lineToArcJoin. fold v1 v2 u1 u2 k. rewrite Er, Ecc. rewrite Ecc in P.
  destruct (intrLineSeg2Circle2 (pos v1) (pos v2) (dist c (pos u1)) c) as [|s|s0' s1'].
  - exact Rd.
  - apply P. rcbn. replace (0 / 1) with 0 by field. reflexivity.
  - rewrite !(pfp_lerp (pos v1) (pos v2)). rcbn. destruct (Rltb (distSquared _ k) (distSquared _ k)); apply P; rewrite (pfp_lerp (pos v1) (pos v2)); replace (0 / 1) with 0 by field; reflexivity.
Qed.

(** from an arc into a straight segment *)
Theorem C62_arc_line (ccw : bool) (s1 s2 : offsetSeg) (c : vec) (r : polyline) :
  let v1 := osV1 s1 in let v2 := osV2 s1 in let u1 := osV1 s2 in let u2 := osV2 s2 in
  okArc v1 v2 -> isLine u1 -> arcCentre (pos v1) (pos v2) (bulge v1) c -> vertexes r <> [] ->
  let k := if collapsedArc s2 then pos u1 else origV2Pos s1 in
  exists o r', joinSegs ccw s1 s2 r = Ok r' /\ meetLC (pos u1) (pos u2) c (dist c (pos v1)) k o /\
    match o with
    | None => roundJoin ccw s1 s2 r r'
    | Some s =>
        let q := lerp (pos u1) (pos u2) s in
        (0 <= s <= 1 -> inSector eps v1 v2 c q -> exists r1, cutBack c (pos v2) q r r1 /\ r' = appended r1 [mkVtx q 0]) /\
        (~ (0 <= s <= 1 /\ inSector eps v1 v2 c q) -> roundJoin ccw s1 s2 r r')
    end.
Proof.
  intros v1 v2 u1 u2 Ha Hl Hc Hr0 k. destruct (arc_data _ _ _ Ha Hc) as (Ec & Ecc & Er & Hr).
  assert (Hl2 : bulgeIsZero v1 = false) by (apply bulgeIsZero_false; apply Ha). apply bulgeIsZero_R in Hl.
  pose proof (round_of ccw s1 s2 u1 r eq_refl eq_refl) as Rd.
  assert (P : forall s, let q := lerp (pos u1) (pos u2) s in exists r',
    (if negb (falseIntersect s) && pointWithinArcSweepAngle c (pos v1) (pos v2) (bulge v1) q
      then let! result := trimPrev c v2 q r in Ok (addOrReplaceIfSamePos result (mkVtx q 0))
      else Ok (connectUsingArc ccw s1 s2 u1 r)) = Ok r' /\
    (0 <= s <= 1 -> inSector eps v1 v2 c q -> exists r1, cutBack c (pos v2) q r r1 /\ r' = appended r1 [mkVtx q 0]) /\
    (~ (0 <= s <= 1 /\ inSector eps v1 v2 c q) -> roundJoin ccw s1 s2 r r')).
  { intros s q. pose proof (within_iff v1 v2 q Ha) as Wt. rewrite <- Ec, Ecc in Wt. destruct (pointWithinArcSweepAngle _ _ _ _ q).
    - assert (I : inSector eps v1 v2 c q) by (apply Wt; reflexivity). rewrite andb_true_r. destruct (falseIntersect s) eqn:F; cbn [negb].
      + assert (~ 0 <= s <= 1) by (rewrite <- false_R; congruence). eexists. split; [reflexivity|]. split; [contradiction|auto].
      + apply false_R in F. destruct (cut_of c v2 q r Hr0) as (r1 & E1 & C1). rewrite E1. cbn [bind]. eexists. split; [reflexivity|].
        split; [|tauto]. intros _ _. exists r1. split; [exact C1|reflexivity].
    - assert (I : ~ inSector eps v1 v2 c q) by (rewrite <- Wt; discriminate). rewrite andb_false_r. eexists. split; [reflexivity|]. split; [contradiction|auto]. }
  assert (J : joinSegs ccw s1 s2 r = arcToLineJoin s1 s2 ccw r) by (unfold joinSegs; fold v1 u1; rewrite Hl, Hl2; reflexivity).
  rewrite J. pose proof (pickLC_meet (pos u1) (pos u2) c (dist c (pos v1)) k Hr) as M.
  exists (pickLC (pos u1) (pos u2) c (dist c (pos v1)) k). revert M. unfold pickLC, arcToLineJoin. fold v1 v2 u1 u2 k. rewrite Er, Ecc.
  destruct (intrLineSeg2Circle2 (pos u1) (pos u2) (dist c (pos v1)) c) as [|s|s0' s1']; intros M.
  - eexists. split; [reflexivity|]. split; [exact M|exact Rd].
  - destruct (P s) as (r' & E & X). exists r'. split; [|split; [exact M|exact X]]. rewrite (pfp_lerp (pos u1) (pos u2)). rcbn. replace (0 / 1) with 0 by field. exact E.
  - rewrite !(pfp_lerp (pos u1) (pos u2)). revert M. rcbn. destruct (Rltb (distSquared _ k) (distSquared _ k)); intros M.
    + destruct (P s0') as (r' & E & X). exists r'. split; [|split; [exact M|exact X]]. replace (0 / 1) with 0 by field. exact E.
    + destruct (P s1') as (r' & E & X). exists r'. split; [|split; [exact M|exact X]]. replace (0 / 1) with 0 by field. exact E.
Qed.

(** from an arc into an arc on another circle *)
Theorem C62_arc_arc (ccw : bool) (s1 s2 : offsetSeg) (c1 c2 : vec) (r : polyline) :
  let v1 := osV1 s1 in let v2 := osV2 s1 in let u1 := osV1 s2 in let u2 := osV2 s2 in
  okArc v1 v2 -> okArc u1 u2 -> arcCentre (pos v1) (pos v2) (bulge v1) c1 -> arcCentre (pos u1) (pos u2) (bulge u1) c2 -> vertexes r <> [] ->
  let r1 := dist c1 (pos v1) in let r2 := dist c2 (pos u1) in
  exists r', joinSegs ccw s1 s2 r = Ok r' /\
    ((* the same circle: go on with the second arc *)
     (dist c1 c2 < eps /\ Rabs (r1 - r2) < eps -> r' = appended r [u1]) /\
     (~ (dist c1 c2 < eps /\ Rabs (r1 - r2) < eps) ->
      exists o, meetCC c1 r1 c2 r2 (origV2Pos s1) o /\
        match o with
        | None => roundJoin ccw s1 s2 r r'
        | Some q =>
            (inSector eps v1 v2 c1 q -> inSector eps u1 u2 c2 q ->
               exists rr w, cutBack c1 (pos v2) q r rr /\ restFrom u1 u2 c2 q w /\ r' = appended rr [w]) /\
            (~ (inSector eps v1 v2 c1 q /\ inSector eps u1 u2 c2 q) -> roundJoin ccw s1 s2 r r')
        end)).
Proof.
  intros v1 v2 u1 u2 Ha Hb Hc1 Hc2 Hr0 r1 r2. destruct (arc_data _ _ _ Ha Hc1) as (Ec1 & Ecc1 & Er1 & Hr1). destruct (arc_data _ _ _ Hb Hc2) as (Ec2 & Ecc2 & Er2 & Hr2).
  assert (Hl1 : bulgeIsZero v1 = false) by (apply bulgeIsZero_false; apply Ha). assert (Hl2 : bulgeIsZero u1 = false) by (apply bulgeIsZero_false; apply Hb).
  pose proof (round_of ccw s1 s2 u1 r eq_refl eq_refl) as Rd. set (k := origV2Pos s1).
  assert (P : forall q, exists r',
    (if pointWithinArcSweepAngle c1 (pos v1) (pos v2) (bulge v1) q && pointWithinArcSweepAngle c2 (pos u1) (pos u2) (bulge u1) q
      then let! result := trimPrev c1 v2 q r in Ok (addOrReplaceIfSamePos result (trimmedArcVertex c2 u1 u2 q))
      else Ok (connectUsingArc ccw s1 s2 u1 r)) = Ok r' /\
    (inSector eps v1 v2 c1 q -> inSector eps u1 u2 c2 q ->
       exists rr w, cutBack c1 (pos v2) q r rr /\ restFrom u1 u2 c2 q w /\ r' = appended rr [w]) /\
    (~ (inSector eps v1 v2 c1 q /\ inSector eps u1 u2 c2 q) -> roundJoin ccw s1 s2 r r')).
  { intros q. pose proof (within_iff v1 v2 q Ha) as W1. rewrite <- Ec1, Ecc1 in W1. pose proof (within_iff u1 u2 q Hb) as W2. rewrite <- Ec2, Ecc2 in W2.
    destruct (pointWithinArcSweepAngle c1 _ _ _ q); cbn [andb].
    - destruct (pointWithinArcSweepAngle c2 _ _ _ q).
      + destruct (cut_of c1 v2 q r Hr0) as (rr & E1 & C1). rewrite E1. cbn [bind]. eexists. split; [reflexivity|].
        split; [|tauto]. intros _ _. exists rr, (trimmedArcVertex c2 u1 u2 q). split; [exact C1|]. split; [now apply rest_of|reflexivity].
      + assert (I : ~ inSector eps u1 u2 c2 q) by (rewrite <- W2; discriminate). eexists. split; [reflexivity|]. split; [contradiction|auto].
    - assert (I : ~ inSector eps v1 v2 c1 q) by (rewrite <- W1; discriminate). eexists. split; [reflexivity|]. split; [contradiction|auto]. }
  assert (J : joinSegs ccw s1 s2 r = arcToArcJoin s1 s2 ccw r) by (unfold joinSegs; fold v1 u1; rewrite Hl1, Hl2; reflexivity).
  rewrite J. pose proof (C19_circle_circle c1 c2 r1 r2 Hr1 Hr2) as K. pose proof (C19_coincident_iff c1 c2 r1 r2) as KC. revert K KC.
  unfold arcToArcJoin. fold v1 v2 u1 u2 k. rewrite Er1, Ecc1, Er2, Ecc2. fold r1 r2.
  destruct (intrCircle2Circle2 r1 c1 r2 c2) as [|p|p q|] eqn:E; intros K KC.
  - assert (NC : ~ (dist c1 c2 < eps /\ Rabs (r1 - r2) < eps)) by (rewrite <- KC; discriminate).
    eexists. split; [reflexivity|]. split; [contradiction|]. intros _. exists None. split; [exact K|exact Rd].
  - assert (NC : ~ (dist c1 c2 < eps /\ Rabs (r1 - r2) < eps)) by (rewrite <- KC; discriminate).
    destruct (P p) as (r' & Ep & X). exists r'. split; [exact Ep|]. split; [contradiction|]. intros _. exists (Some p). split; [|exact X].
    destruct K as [[A B]|K]; [left; split; [exact A|]|right; exact K]. intros z Hz. right. auto.
  - assert (NC : ~ (dist c1 c2 < eps /\ Rabs (r1 - r2) < eps)) by (rewrite <- KC; discriminate).
    destruct K as [_ K]. rcbn. destruct (Rltb (distSquared p k) (distSquared q k)) eqn:D.
    + destruct (P p) as (r' & Ep & X). exists r'. split; [exact Ep|]. split; [contradiction|]. intros _. exists (Some p). split; [|exact X].
      left. split; [apply K; auto|]. intros z Hz. left. apply K in Hz. destruct Hz as [->| ->]; [lra|now apply nearer].
    + destruct (P q) as (r' & Ep & X). exists r'. split; [exact Ep|]. split; [contradiction|]. intros _. exists (Some q). split; [|exact X].
      left. split; [apply K; auto|]. intros z Hz. left. apply K in Hz. destruct Hz as [->| ->]; [now apply nearer'|lra].
  - eexists. split; [reflexivity|]. split; [intros _; reflexivity|]. intros N. exfalso. apply N, KC. reflexivity.
Qed.

(** ** A line into a half circle it crosses twice: the join is made at the crossing near the corner, and the rest of the
    half circle is a quarter. *)
Definition exLine : offsetSeg := mkOS (mkVtx (mkV 0 0) 0) (mkVtx (mkV 10 0) 0) (mkV 9 1) false.
Definition exArc : offsetSeg := mkOS (mkVtx (mkV 5 (-3)) 1) (mkVtx (mkV 5 3) 0) (mkV 5 4) false.

Lemma ex_centre : arcCentre (mkV 5 (-3)) (mkV 5 3) 1 (mkV 5 0).
Proof.
  unfold arcCentre, sweep. rewrite atan_1. replace (4 * (PI / 4)) with PI by field. unfold rot. rewrite cos_PI, sin_PI. cbn [vx vy]. apply vec_eq; cbn [vx vy]; lra.
Qed.

Example C62_line_into_half_circle : exists w,
  joinSegs true exLine exArc (mkPline false [mkVtx (mkV 0 0) 0]) = Ok (mkPline false [mkVtx (mkV 0 0) 0; w]) /\
  pos w = mkV 8 0 /\ sweep (bulge w) = PI / 2.
Proof.
  assert (Hl : isLine (osV1 exLine)) by (unfold isLine; cbn; rewrite Rabs_R0; lra).
  assert (Ha : okArc (osV1 exArc) (osV2 exArc)).
  { split; [|split].
    - unfold isLine; cbn. rewrite Rabs_pos_eq; lra.
    - cbn. rewrite Rabs_pos_eq; lra.
    - cbn. intros E. injection E as E. lra. }
  destruct (C62_line_arc true exLine exArc (mkV 5 0) (mkPline false [mkVtx (mkV 0 0) 0]) Hl Ha ex_centre) as (o & r' & E & M & X).
  cbn [exLine exArc osV1 osV2 pos origV2Pos bulge] in M, X.
  assert (Dr : dist (mkV 5 0) (mkV 5 (-3)) = 3) by (apply dist_eq; [lra|cbn [vx vy]; lra]). rewrite Dr in M.
  assert (Lp : forall t, lerp (mkV 0 0) (mkV 10 0) t = mkV (10 * t) 0) by (intros t; unfold lerp; apply vec_eq; cbn [vx vy]; lra).
  assert (D5 : forall t, dist (mkV 5 0) (lerp (mkV 0 0) (mkV 10 0) t) * dist (mkV 5 0) (lerp (mkV 0 0) (mkV 10 0) t) = (5 - 10 * t) * (5 - 10 * t)).
  { intros t. rewrite Lp, dist_sq. cbn [vx vy]. ring. }
  assert (H8 : dist (mkV 5 0) (lerp (mkV 0 0) (mkV 10 0) (8 / 10)) = 3) by (rewrite Lp; apply dist_eq; [lra|cbn [vx vy]; lra]).
  assert (Lq : len2 (mkV 0 0) (mkV 10 0) = 100) by (unfold len2; cbn [vx vy]; lra).
  destruct o as [s|].
  2:{ exfalso. destruct M as [[_ M]|[M _]]; [specialize (M (8 / 10)); lra|rewrite Lq in M; unfold eps in M; lra]. }
  assert (s = 8 / 10) as ->.
  { destruct M as [[A B]|[[A B]|[A _]]].
    - specialize (B _ H8). assert (Sq : (5 - 10 * s) * (5 - 10 * s) = 9) by (rewrite <- D5, A; lra).
      assert (C : dist (mkV 9 1) (lerp (mkV 0 0) (mkV 10 0) s) * dist (mkV 9 1) (lerp (mkV 0 0) (mkV 10 0) s) <= dist (mkV 9 1) (lerp (mkV 0 0) (mkV 10 0) (8 / 10)) * dist (mkV 9 1) (lerp (mkV 0 0) (mkV 10 0) (8 / 10))).
      { apply Rmult_le_compat; try apply sqrt_pos; exact B. }
      rewrite !Lp, !dist_sq in C. cbn [vx vy] in C. assert (s <> 2 / 10) by (intros ->; lra).
      assert (F : (s - 2 / 10) * (s - 8 / 10) = 0) by lra. apply Rmult_integral in F. lra.
    - exfalso. specialize (A (1 / 2)). assert (Z : dist (mkV 5 0) (lerp (mkV 0 0) (mkV 10 0) (1 / 2)) = 0) by (rewrite Lp; apply dist_eq; [lra|cbn [vx vy]; lra]).
      rewrite Z in A. assert (dist (mkV 5 0) (lerp (mkV 0 0) (mkV 10 0) s) = 0) as Y by (pose proof (sqrt_pos ((vx (mkV 5 0) - vx (lerp (mkV 0 0) (mkV 10 0) s)) ^ 2 + (vy (mkV 5 0) - vy (lerp (mkV 0 0) (mkV 10 0) s)) ^ 2)); unfold dist in *; lra).
      assert (Sq : (5 - 10 * s) * (5 - 10 * s) = 0) by (rewrite <- D5, Y; lra). rewrite Lq, Lp in B. unfold power in B. cbn [vx vy] in B.
      replace ((10 * s - 5) * (10 * s - 5) + (0 - 0) * (0 - 0) - 3 * 3) with (-9) in B by lra. rewrite Rabs_left in B by lra. unfold eps in B. lra.
    - exfalso. rewrite Lq in A. unfold eps in A. lra. }
  assert (Q : lerp (mkV 0 0) (mkV 10 0) (8 / 10) = mkV 8 0) by (rewrite Lp; apply vec_eq; cbn [vx vy]; lra).
  cbv zeta in X. rewrite Q in X. destruct X as (X & _ & _). destruct X as (w & [Pw Rw] & Er).
  - lra.
  - unfold inSector, cross, sgn. cbn [pos bulge vx vy]. destruct (Rlt_dec 0 1); [|lra]. unfold eps. lra.
  - exists w. split.
    + rewrite E, Er. unfold appended, addOrReplaceIfSamePos. cbn [fold_left vertexes isClosed rev app pos].
      rewrite prec_R. assert (fuzzyEqual (mkV 0 0) (pos w) (1 / 100000) = false) as ->; [|reflexivity].
      rewrite Pw. apply not_true_iff_false. rewrite fuzzyEqual_R. cbn [vx vy]. intros [F _]. apply Rabs_def2 in F. lra.
    + split; [exact Pw|]. cbn [bulge] in Rw. destruct (Rw (1 / 2)) as [S _]; [lra| |].
      * unfold sweep. rewrite atan_1. replace (1 / 2 * (4 * (PI / 4))) with (PI / 2) by field. unfold rot. rewrite cos_PI2, sin_PI2. cbn [vx vy pos exArc osV1 bulge]. apply vec_eq; cbn [vx vy]; lra.
      * rewrite S. unfold sweep. rewrite atan_1. field.
Qed.
