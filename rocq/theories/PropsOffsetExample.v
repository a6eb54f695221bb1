(** * A concrete case for C57 and C58: a square of size 100 with a small chamfer *)
From Coq Require Import ZArith Reals Lra Lia List Bool Arith Permutation Sorted.
From Verif Require Import Base Num MathUtils PlineSegment SpatialIndex Polyline Intersects Combine Offset StdLaws RGeom Spec PropsMath ArcGeom Polar PropsSegment PropsClosest PropsIntr PropsPlineIntr PropsPolyline Turning PropsWinding PropsRegion PropsExtents PropsPlineIndex PropsCoincident PropsSlices PropsPieces PropsTrace PropsCombine PropsBoolOps PropsDirection PropsStitch PropsOffset PropsOffsetSlices PropsOffsetSegs PropsRawOffset PropsJoins PropsParallelTotal PropsRawStructure PropsRawGeom PropsRawPoints PropsOffsetCuts PropsOffsetRuns PropsOffsetParts PropsOffsetResult PropsOffsetExact PropsOffsetHits.
Import ListNotations.
Open Scope R_scope.

Definition chamfer : polyline := mkPline true [mkVertex 0 0 0; mkVertex 100 0 0; mkVertex 100 94 0; mkVertex 92 100 0; mkVertex 0 100 0].
(** the offset by 15 to the inside, before cutting: near the chamfer it has a small loop around (86, 85.5) *)
Definition chamferRaw : list vec := [mkV 15 15; mkV 85 15; mkV 85 (173 / 2); mkV 87 85; mkV 15 85].

Notation Q0 := (mkV 0 0). Notation Q1 := (mkV 100 0). Notation Q2 := (mkV 100 94). Notation Q3 := (mkV 92 100). Notation Q4 := (mkV 0 100).

Lemma dist_is a b c : 0 <= c -> (vx a - vx b) ^ 2 + (vy a - vy b) ^ 2 = c * c -> dist a b = c.
Proof. intros H E. unfold dist. rewrite E. now apply sqrt_square. Qed.

Lemma d01 : dist Q0 Q1 = 100. Proof. apply dist_is; cbn [vx vy]; lra. Qed.
Lemma d12 : dist Q1 Q2 = 94. Proof. apply dist_is; cbn [vx vy]; lra. Qed.
Lemma d23 : dist Q2 Q3 = 10. Proof. apply dist_is; cbn [vx vy]; lra. Qed.
Lemma d34 : dist Q3 Q4 = 92. Proof. apply dist_is; cbn [vx vy]; lra. Qed.
Lemma d40 : dist Q4 Q0 = 100. Proof. apply dist_is; cbn [vx vy]; lra. Qed.

Lemma s0 d : setback d Q0 Q1 Q2 = d. Proof. unfold setback, turn, dotp. rewrite d01, d12. cbn [vx vy]. field. Qed.
Lemma s1 d : setback d Q1 Q2 Q3 = d / 2. Proof. unfold setback, turn, dotp. rewrite d12, d23. cbn [vx vy]. field. Qed.
Lemma s2 d : setback d Q2 Q3 Q4 = d / 3. Proof. unfold setback, turn, dotp. rewrite d23, d34. cbn [vx vy]. field. Qed.
Lemma s3 d : setback d Q3 Q4 Q0 = d. Proof. unfold setback, turn, dotp. rewrite d34, d40. cbn [vx vy]. field. Qed.
Lemma s4 d : setback d Q4 Q0 Q1 = d. Proof. unfold setback, turn, dotp. rewrite d40, d01. cbn [vx vy]. field. Qed.

Lemma o0 d l : offPt d Q0 Q1 l = mkV l d. Proof. unfold offPt, nrmX, nrmY. rewrite d01. cbn [vx vy]. apply vec_eq; cbn [vx vy]; rfield. Qed.
Lemma o1 d l : offPt d Q1 Q2 l = mkV (100 - d) l. Proof. unfold offPt, nrmX, nrmY. rewrite d12. cbn [vx vy]. apply vec_eq; cbn [vx vy]; rfield. Qed.
Lemma o2 d l : offPt d Q2 Q3 l = mkV (100 - 4 / 5 * l - 3 / 5 * d) (94 + 3 / 5 * l - 4 / 5 * d). Proof. unfold offPt, nrmX, nrmY. rewrite d23. cbn [vx vy]. apply vec_eq; cbn [vx vy]; rfield. Qed.
Lemma o3 d l : offPt d Q3 Q4 l = mkV (92 - l) (100 - d). Proof. unfold offPt, nrmX, nrmY. rewrite d34. cbn [vx vy]. apply vec_eq; cbn [vx vy]; rfield. Qed.
Lemma o4 d l : offPt d Q4 Q0 l = mkV d (100 - l). Proof. unfold offPt, nrmX, nrmY. rewrite d40. cbn [vx vy]. apply vec_eq; cbn [vx vy]; rfield. Qed.

(** the trims for the offset to the inside: 15, 15 / 2, 5, 15, 15; to the outside: none *)
Lemma metb_yes d a b c : 0 < setback d a b c -> setback d a b c <= dist a b -> setback d a b c <= dist b c -> metb d a b c = true.
Proof. intros H1 H2 H3. unfold metb. now rewrite (proj2 (Rltb_spec _ _) H1), (proj2 (Rleb_spec _ _) H2), (proj2 (Rleb_spec _ _) H3). Qed.
Lemma metb_no d a b c : setback d a b c < 0 -> metb d a b c = false.
Proof. intros H1. unfold metb. now rewrite (proj2 (Rltb_false _ _)) by lra. Qed.

Lemma m0 : metb 15 Q0 Q1 Q2 = true. Proof. apply metb_yes; rewrite s0, ?d01, ?d12; lra. Qed.
Lemma m1 : metb 15 Q1 Q2 Q3 = true. Proof. apply metb_yes; rewrite s1, ?d12, ?d23; lra. Qed.
Lemma m2 : metb 15 Q2 Q3 Q4 = true. Proof. apply metb_yes; rewrite s2, ?d23, ?d34; lra. Qed.
Lemma m3 : metb 15 Q3 Q4 Q0 = true. Proof. apply metb_yes; rewrite s3, ?d34, ?d40; lra. Qed.
Lemma m4 : metb 15 Q4 Q0 Q1 = true. Proof. apply metb_yes; rewrite s4, ?d40, ?d01; lra. Qed.
Lemma k0 : metb (- (15)) Q0 Q1 Q2 = false. Proof. apply metb_no; rewrite s0; lra. Qed.
Lemma k1 : metb (- (15)) Q1 Q2 Q3 = false. Proof. apply metb_no; rewrite s1; lra. Qed.
Lemma k2 : metb (- (15)) Q2 Q3 Q4 = false. Proof. apply metb_no; rewrite s2; lra. Qed.
Lemma k3 : metb (- (15)) Q3 Q4 Q0 = false. Proof. apply metb_no; rewrite s3; lra. Qed.
Lemma k4 : metb (- (15)) Q4 Q0 Q1 = false. Proof. apply metb_no; rewrite s4; lra. Qed.

Lemma cham_idx j : exists i, (i < 5)%nat /\ (forall m, pt chamfer (m + j) = pt chamfer (m + i)) /\ forall m, pt chamfer (m + before chamfer j) = pt chamfer (m + before chamfer i).
Proof.
  exists (j mod 5)%nat. split; [apply Nat.mod_upper_bound; lia|]. assert (G : forall m, pt chamfer (m + j) = pt chamfer (m + j mod 5)).
  { intros m. unfold pt, vert. change (length (vertexes chamfer)) with 5%nat. rewrite !Nat.add_0_r. now rewrite Nat.add_mod_idemp_r by lia. }
  split; [exact G|]. intros m. unfold before. change (length (vertexes chamfer) - 1)%nat with 4%nat. replace (m + (j + 4))%nat with ((m + 4) + j)%nat by lia. replace (m + (j mod 5 + 4))%nat with ((m + 4) + j mod 5)%nat by lia. apply G.
Qed.

Lemma p0 : pt chamfer 0 = Q0. Proof. reflexivity. Qed.
Lemma p1 : pt chamfer 1 = Q1. Proof. reflexivity. Qed.
Lemma p2 : pt chamfer 2 = Q2. Proof. reflexivity. Qed.
Lemma p3 : pt chamfer 3 = Q3. Proof. reflexivity. Qed.
Lemma p4 : pt chamfer 4 = Q4. Proof. reflexivity. Qed.
Lemma p5 : pt chamfer 5 = Q0. Proof. reflexivity. Qed.
Lemma p6 : pt chamfer 6 = Q1. Proof. reflexivity. Qed.
Lemma p7 : pt chamfer 7 = Q2. Proof. reflexivity. Qed.
Lemma p8 : pt chamfer 8 = Q3. Proof. reflexivity. Qed.
Lemma p9 : pt chamfer 9 = Q4. Proof. reflexivity. Qed.
Lemma p10 : pt chamfer 10 = Q0. Proof. reflexivity. Qed.

Ltac nums := cbn [before Nat.add Nat.sub length vertexes chamfer]; rewrite ?p0, ?p1, ?p2, ?p3, ?p4, ?p5, ?p6, ?p7, ?p8, ?p9, ?p10, ?d01, ?d12, ?d23, ?d34, ?d40, ?s0, ?s1, ?s2, ?s3, ?s4, ?m0, ?m1, ?m2, ?m3, ?m4, ?k0, ?k1, ?k2, ?k3, ?k4, ?o0, ?o1, ?o2, ?o3, ?o4; cbn [vx vy].
Ltac five i Hi := destruct i as [|[|[|[|[|i]]]]]; [| | | | |lia].
Ltac absc := first [rewrite Rabs_right by lra; lra|rewrite Rabs_left by lra; lra].
Ltac farc := unfold far; cbn [vx vy]; first [left; absc|right; absc].

Lemma cham_line v : In v (vertexes chamfer) -> isLine v.
Proof. intros [<-|[<-|[<-|[<-|[<-|[]]]]]]; unfold isLine; cbn; rewrite Rabs_R0; lra. Qed.

Lemma cham_in : clearRaw chamfer 15.
Proof.
  split.
  - reflexivity.
  - cbn; lia.
  - apply cham_line.
  - intros j. destruct (cham_idx j) as (i & Hi & E & _). rewrite (E 0%nat : pt chamfer j = _), (E 1%nat : pt chamfer (S j) = _). five i Hi; nums; farc.
  - intros j. destruct (cham_idx j) as (i & Hi & E & _). rewrite (E 0%nat : pt chamfer j = _), (E 1%nat : pt chamfer (S j) = _), (E 2%nat : pt chamfer (S (S j)) = _).
    unfold clearCorner, turn. five i Hi; nums; (split; [absc|right; left; lra]).
  - intros j. destruct (cham_idx j) as (i & Hi & E & B). unfold startPt, endPt, edgePt, trimC, trim, len.
    rewrite (E 0%nat : pt chamfer j = _), (E 1%nat : pt chamfer (S j) = _), (E 2%nat : pt chamfer (S (S j)) = _), (B 0%nat : pt chamfer (before chamfer j) = _), (B 1%nat : pt chamfer (S (before chamfer j)) = _), (B 2%nat : pt chamfer (S (S (before chamfer j))) = _).
    five i Hi; nums; farc.
  - intros j. destruct (cham_idx j) as (i & Hi & E & _). unfold met. rewrite (E 0%nat : pt chamfer j = _), (E 1%nat : pt chamfer (S j) = _), (E 2%nat : pt chamfer (S (S j)) = _). five i Hi; nums; discriminate.
  - unfold endPt, edgePt, trimC, trim, len. nums. farc.
Qed.

Lemma cham_out : clearRaw chamfer (- (15)).
Proof.
  split.
  - reflexivity.
  - cbn; lia.
  - apply cham_line.
  - intros j. destruct (cham_idx j) as (i & Hi & E & _). rewrite (E 0%nat : pt chamfer j = _), (E 1%nat : pt chamfer (S j) = _). five i Hi; nums; farc.
  - intros j. destruct (cham_idx j) as (i & Hi & E & _). rewrite (E 0%nat : pt chamfer j = _), (E 1%nat : pt chamfer (S j) = _), (E 2%nat : pt chamfer (S (S j)) = _).
    unfold clearCorner, turn, eps. five i Hi; nums; rewrite Rabs_Ropp, (Rabs_right 15) by lra; (split; [absc|left; lra]).
  - intros j. destruct (cham_idx j) as (i & Hi & E & B). unfold startPt, endPt, edgePt, trimC, trim, len.
    rewrite (E 0%nat : pt chamfer j = _), (E 1%nat : pt chamfer (S j) = _), (E 2%nat : pt chamfer (S (S j)) = _), (B 0%nat : pt chamfer (before chamfer j) = _), (B 1%nat : pt chamfer (S (before chamfer j)) = _), (B 2%nat : pt chamfer (S (S (before chamfer j))) = _).
    five i Hi; nums; farc.
  - intros j _. destruct (cham_idx j) as (i & Hi & E & _). unfold startPt, endPt, edgePt, len. rewrite (E 0%nat : pt chamfer j = _), (E 1%nat : pt chamfer (S j) = _), (E 2%nat : pt chamfer (S (S j)) = _). five i Hi; nums; farc.
  - unfold endPt, edgePt, trimC, trim, len. nums. farc.
Qed.

(** ** The raw offsets *)
Lemma cham_raw : exists vs, createRawOffsetPline chamfer 15 = Ok (mkPline true vs) /\ map pos vs = chamferRaw /\ forall v, In v vs -> isLine v.
Proof.
  destruct (raw_structure chamfer 15 cham_in) as (vs & E & F). exists vs. split; [exact E|].
  assert (T : rawTags chamfer 15 = [Off 0; Off 1; Off 2; Off 3; Off 4]).
  { unfold rawTags. cbn [length vertexes chamfer Nat.sub seq flat_map]. unfold cornerTags, met. nums. reflexivity. }
  rewrite T in F. inversion F as [|? v0 ? ? H0 F0]; subst. inversion F0 as [|? v1 ? ? H1 F1]; subst. inversion F1 as [|? v2 ? ? H2 F2]; subst. inversion F2 as [|? v3 ? ? H3 F3]; subst. inversion F3 as [|? v4 ? ? H4 F4]; subst. inversion F4; subst.
  unfold starts, startPt, edgePt, trimC, trim in *. destruct H0 as [P0 L0]. destruct H1 as [P1 L1]. destruct H2 as [P2 L2]. destruct H3 as [P3 L3]. destruct H4 as [P4 L4]. split.
  - cbn [map]. rewrite P0, P1, P2, P3, P4. unfold chamferRaw. nums. repeat (apply f_equal2; [apply vec_eq; cbn [vx vy]; lra|]). reflexivity.
  - intros v [<-|[<-|[<-|[<-|[<-|[]]]]]]; auto.
Qed.

Section Inside.
Variable vs : list vertex.
Hypothesis Hpos : map pos vs = chamferRaw.
Hypothesis Hline : forall v, In v vs -> isLine v.
Let raw := mkPline true vs.

Lemma vs_len : length vs = 5%nat.
Proof. rewrite <- (map_length pos), Hpos. reflexivity. Qed.

Lemma in_vert k e : vert raw k e = nth ((k + e) mod 5) vs vdflt /\ isLine (vert raw k e) /\ pos (vert raw k e) = nth ((k + e) mod 5) chamferRaw (pos vdflt).
Proof.
  unfold vert, at_. cbn [raw vertexes]. rewrite vs_len. split; [reflexivity|]. split; [apply Hline, nth_In; rewrite vs_len; apply Nat.mod_upper_bound; lia|]. now rewrite <- Hpos, (map_nth pos).
Qed.

Lemma in_seg k t : seg raw k t = lerp (nth (k mod 5) chamferRaw (pos vdflt)) (nth ((k + 1) mod 5) chamferRaw (pos vdflt)) t.
Proof. unfold seg. rewrite segPath_line by apply in_vert. rewrite (proj2 (proj2 (in_vert k 0))), (proj2 (proj2 (in_vert k 1))), Nat.add_0_r. reflexivity. Qed.

(** the only crossing *)
Lemma in_double q : doublePoint raw q -> q = mkV 85 85.
Proof.
  intros (i & j & Hi & Hj & Ne & Oi & Oj & Ns). cbn [raw vertexes] in Hi, Hj. rewrite vs_len in Hi, Hj. unfold sharedVertex in Ns. change (length (vertexes raw)) with (length vs) in Ns. rewrite vs_len in Ns.
  apply onSeg_path in Oi, Oj. destruct Oi as (s & Hs & Es). destruct Oj as (t & Ht & Et). change (q = seg raw i s) in Es. change (q = seg raw j t) in Et. rewrite in_seg in Es, Et.
  rewrite (proj2 (proj2 (in_vert i 0))), (proj2 (proj2 (in_vert j 0))), !Nat.add_0_r in Ns.
  pose proof (f_equal vx Es) as X1. pose proof (f_equal vy Es) as Y1. pose proof (f_equal vx Et) as X2. pose proof (f_equal vy Et) as Y2. clear Es Et. destruct q as [qx qy].
  five i Hi; five j Hj; try congruence; cbn -[chamferRaw nth] in Ns; cbn [chamferRaw nth Nat.modulo Nat.divmod Nat.add Nat.sub fst snd lerp vx vy] in X1, Y1, X2, Y2, Ns;
    first [exfalso; lra|apply vec_eq; cbn [vx vy]; lra|exfalso; apply Ns; left; split; [reflexivity|apply vec_eq; cbn [vx vy]; lra]|exfalso; apply Ns; right; split; [reflexivity|apply vec_eq; cbn [vx vy]; lra]].
Qed.

Lemma in_exact : exactSelf raw.
Proof.
  intros i j Hi Hj Ne. cbn [raw vertexes] in Hi, Hj. rewrite vs_len in Hi, Hj.
  assert (G : exactPair (vert raw i 0) (vert raw i 1) (vert raw j 0) (vert raw j 1)); [|destruct G as [G1 G2]; split; [exact G1|intros q _; apply G2]].
  apply decided_exact. split; [apply in_vert|]. split; [apply in_vert|].
  rewrite (proj2 (proj2 (in_vert i 0))), (proj2 (proj2 (in_vert j 0))), (proj2 (proj2 (in_vert i 1))), (proj2 (proj2 (in_vert j 1))).
  five i Hi; five j Hj; try congruence; cbn [chamferRaw nth Nat.modulo Nat.divmod Nat.add Nat.sub fst snd]; unfold cross, eps; cbn [vx vy];
   first [left; split; [lra|absc]
         |right; split; [absc|]; intros s t E Hs Ht; pose proof (f_equal vx E) as X; pose proof (f_equal vy E) as Y; unfold lerp in X, Y; cbn [vx vy] in X, Y; lra].
Qed.

Lemma in_segs v1 v2 : In (v1, v2) (pathSegs raw) -> exists k, (k < 5)%nat /\ v1 = vert raw k 0 /\ v2 = vert raw k 1.
Proof. intros H. apply at_seg in H; [|reflexivity]. destruct H as (k & Hk & E). exists k. split; [cbn [raw vertexes] in Hk; now rewrite vs_len in Hk|exact E]. Qed.

Lemma in_spaced (X : vec -> Prop) : (forall q, X q -> q = mkV 85 85) -> spaced raw X.
Proof.
  intros HX. split; [|split].
  - intros v1 v2 H. destruct (in_segs _ _ H) as (k & Hk & -> & ->). rewrite (proj2 (proj2 (in_vert k 0))), (proj2 (proj2 (in_vert k 1))).
    five k Hk; cbn [chamferRaw nth Nat.modulo Nat.divmod Nat.add Nat.sub fst snd]; farc.
  - intros v q H Hq. apply HX in Hq. subst q. apply (in_map pos) in H. cbn [raw vertexes] in H. rewrite Hpos in H. destruct H as [<-|[<-|[<-|[<-|[<-|[]]]]]]; farc.
  - intros v1 v2 q H _ _. destruct (in_segs _ _ H) as (k & Hk & -> & ->). unfold longArc. pose proof (proj1 (proj2 (in_vert k 0))). repeat split; intros; contradiction.
Qed.

Lemma in_position dual : offsetPosition false raw dual.
Proof.
  assert (HX : forall q, cutPoint false raw dual q -> q = mkV 85 85) by (intros q [H|[H _]]; [now apply in_double|discriminate]). split.
  - cbn [raw vertexes]. rewrite vs_len. lia.
  - unfold smallBulges. apply Forall_forall. intros v Hv. apply Hline in Hv. unfold isLine in Hv. lra.
  - apply in_exact.
  - now apply in_spaced.
  - intros q q' H H' N. apply HX in H, H'. congruence.
  - discriminate.
Qed.
End Inside.

(** ** The points of the chamfered square *)
Lemma cham_on p : onPath chamfer p -> exists t, 0 <= t <= 1 /\ (p = mkV (100 * t) 0 \/ p = mkV 100 (94 * t) \/ p = mkV (100 - 8 * t) (94 + 6 * t) \/ p = mkV (92 - 92 * t) 100 \/ p = mkV 0 (100 - 100 * t)).
Proof.
  intros (v1 & v2 & H & O). assert (L : isLine v1) by (destruct H as [E|[E|[E|[E|[E|[]]]]]]; injection E as <- <-; apply cham_line; cbn; tauto).
  apply onSeg_path in O. destruct O as (t & Ht & ->). rewrite segPath_line by auto. exists t. split; [auto|].
  destruct H as [E|[E|[E|[E|[E|[]]]]]]; injection E as <- <-; unfold lerp; cbn [pos mkVertex vx vy]; [left|right; left|do 2 right; left|do 3 right; left|do 4 right]; apply vec_eq; cbn [vx vy]; rring.
Qed.

Lemma cham_edges t : 0 <= t <= 1 -> onPath chamfer (mkV (100 * t) 0) /\ onPath chamfer (mkV 100 (94 * t)) /\ onPath chamfer (mkV (92 - 92 * t) 100) /\ onPath chamfer (mkV 0 (100 - 100 * t)).
Proof.
  intros Ht. assert (G : forall v1 v2 q, In (v1, v2) (pathSegs chamfer) -> q = lerp (pos v1) (pos v2) t -> onPath chamfer q).
  { intros v1 v2 q H ->. exists v1, v2. split; [auto|]. apply onSeg_lerp; auto. destruct H as [E|[E|[E|[E|[E|[]]]]]]; injection E as <- <-; apply cham_line; cbn; tauto. }
  split; [apply (G (mkVertex 0 0 0) (mkVertex 100 0 0)); [now left|]|split; [apply (G (mkVertex 100 0 0) (mkVertex 100 94 0)); [right; now left|]|split; [apply (G (mkVertex 92 100 0) (mkVertex 0 100 0)); [do 3 right; now left|]|apply (G (mkVertex 0 100 0) (mkVertex 0 0 0)); [do 4 right; now left|]]]];
    unfold lerp; cbn [pos mkVertex vx vy]; apply vec_eq; cbn [vx vy]; rring.
Qed.

Lemma dist_coord p q r : r <= Rabs (vx p - vx q) \/ r <= Rabs (vy p - vy q) -> r <= dist p q.
Proof.
  intros H. unfold dist. destruct (Rle_lt_dec r 0) as [L|L]; [apply Rle_trans with (1 := L), sqrt_pos|].
  rewrite <- (sqrt_Rsqr r) by lra. apply sqrt_le_1_alt. unfold Rsqr. pose proof (sq_nonneg (vx p - vx q)) as S1. pose proof (sq_nonneg (vy p - vy q)) as S2.
  assert (K : forall z, r <= Rabs z -> r * r <= z * z).
  { intros z Hz. assert (L1 : r * r <= Rabs z * Rabs z) by (apply Rmult_le_compat; lra). rewrite <- Rabs_mult, Rabs_right in L1 by apply Rle_ge, sq_nonneg. exact L1. }
  destruct H as [H|H]; apply K in H; lra.
Qed.

Lemma cham_clear (x y : R) : 15 <= x <= 77 \/ y <= 79 -> 15 <= x <= 85 -> 15 <= y <= 85 -> clearBy chamfer 15 (mkV x y).
Proof.
  intros H Hx Hy p Hp. apply dist_coord. destruct (cham_on p Hp) as (t & Ht & [->|[->|[->|[->| ->]]]]); cbn [vx vy].
  - right. rewrite Rabs_right; lra.
  - left. rewrite Rabs_left; lra.
  - destruct H as [H|H]; [left; rewrite Rabs_left; lra|right; rewrite Rabs_left; lra].
  - right. rewrite Rabs_left; lra.
  - left. rewrite Rabs_right; lra.
Qed.

(** points that keep their distance and are inside are in the inner square *)
Lemma cham_box (x y : R) : clearBy chamfer 15 (mkV x y) -> 0 <= x <= 92 -> 0 <= y <= 94 -> 15 <= x <= 85 /\ 15 <= y <= 85.
Proof.
  intros H Hx Hy. assert (D : forall a b c, dist (mkV a b) (mkV c b) = Rabs (a - c)) by (intros a b c; unfold dist; cbn [vx vy]; rewrite <- sqrt_Rsqr_abs; f_equal; unfold Rsqr; ring).
  assert (D' : forall a b c, dist (mkV a b) (mkV a c) = Rabs (b - c)) by (intros a b c; unfold dist; cbn [vx vy]; rewrite <- sqrt_Rsqr_abs; f_equal; unfold Rsqr; ring).
  pose proof (H _ (proj1 (cham_edges (x / 100) ltac:(lra)))) as A1. replace (100 * (x / 100)) with x in A1 by field. rewrite D', Rabs_right in A1 by lra.
  pose proof (H _ (proj1 (proj2 (cham_edges (y / 94) ltac:(lra))))) as A2. replace (94 * (y / 94)) with y in A2 by field. rewrite D, Rabs_left in A2 by lra.
  pose proof (H _ (proj1 (proj2 (proj2 (cham_edges (1 - x / 92) ltac:(lra)))))) as A3. replace (92 - 92 * (1 - x / 92)) with x in A3 by field. rewrite D', Rabs_left in A3 by lra.
  pose proof (H _ (proj2 (proj2 (proj2 (cham_edges (1 - y / 100) ltac:(lra)))))) as A4. replace (100 - 100 * (1 - y / 100)) with y in A4 by field. rewrite D, Rabs_right in A4 by lra. lra.
Qed.

Lemma in_decisive vs dual : map pos vs = chamferRaw -> (forall v, In v vs -> isLine v) -> decisive chamfer (mkPline true vs) 15 (cutPoint false (mkPline true vs) dual).
Proof.
  intros Hpos Hline. pose proof (in_position vs Hpos Hline dual) as HP. set (raw := mkPline true vs) in *.
  assert (HX : forall q, cutPoint false raw dual q -> q = mkV 85 85) by (intros q [H|[H _]]; [now apply (in_double vs Hpos Hline)|discriminate]).
  intros p [->|(l & (k & a & d & b & Hk & Hd & R & _ & Xa & Xb) & ->)].
  - left. rewrite Rabs_right by lra. assert (E : pos (at_ raw 0) = mkV 15 15). { pose proof (proj2 (proj2 (in_vert vs Hpos Hline 0 0))) as E. unfold vert in E. cbn [vertexes] in E. rewrite (vs_len vs Hpos) in E. exact E. } rewrite E. apply cham_clear; lra.
  - assert (Craw : closedPline raw) by (split; [reflexivity|cbn [raw vertexes]; rewrite (vs_len vs Hpos); lia]).
    rewrite (lastMid_run raw _ k a d b l Craw (op_arcs _ _ _ HP) (op_spaced _ _ _ HP) R). apply HX in Xa, Xb. cbn [raw vertexes] in Hk, Hd. rewrite (vs_len vs Hpos) in Hk, Hd.
    unfold raw in Xa, Xb. rewrite (in_seg vs Hpos Hline) in Xa, Xb. destruct R as (Ha & Hb & R).
    pose proof (f_equal vx Xa) as A1. pose proof (f_equal vy Xa) as A2. pose proof (f_equal vx Xb) as B1. pose proof (f_equal vy Xb) as B2. clear Xa Xb.
    assert (Clear : clearBy chamfer (Rabs 15) (mkV 85 50)) by (rewrite Rabs_right by lra; apply cham_clear; lra).
    assert (Close : exists q, onPath chamfer q /\ dist (mkV 86 85) q <= Rabs 15 - 2 / 10000).
    { exists (mkV 100 85). split; [replace 85 with (94 * (85 / 94)) by field; apply cham_edges; lra|]. rewrite Rabs_right by lra. rewrite (dist_is _ _ 14); cbn [vx vy]; lra. }
    assert (Mid : exists k', (k' = 1 \/ k' = 3)%nat /\ runMid raw k a d b = lerp (nth k' chamferRaw (pos vdflt)) (nth (k' + 1) chamferRaw (pos vdflt)) (b / 2) /\ vx (lerp (nth k' chamferRaw (pos vdflt)) (nth (k' + 1) chamferRaw (pos vdflt)) b) = 85 /\ vy (lerp (nth k' chamferRaw (pos vdflt)) (nth (k' + 1) chamferRaw (pos vdflt)) b) = 85).
    { unfold runMid. destruct d as [|d]; [exfalso; destruct R as (_ & _ & _ & Hab & _); rewrite Nat.add_0_r in *; five k Hk; cbn [chamferRaw nth Nat.modulo Nat.divmod Nat.add Nat.sub fst snd lerp vx vy] in A1, A2, B1, B2; lra|].
      unfold raw. rewrite (in_seg vs Hpos Hline). remember ((k + S d) mod 5)%nat as k' eqn:Ek. assert (E1 : ((k + S d + 1) mod 5 = (k' + 1) mod 5)%nat) by (rewrite Ek, Nat.add_mod_idemp_l by lia; reflexivity). rewrite E1 in B1, B2 |- *.
      assert (Hk' : (k' < 5)%nat) by (rewrite Ek; apply Nat.mod_upper_bound; lia). clear Ek E1 A1 A2 R. exists k'. five k' Hk'; cbn [chamferRaw nth Nat.modulo Nat.divmod Nat.add Nat.sub fst snd lerp vx vy] in B1, B2 |- *; first [exfalso; lra|split; [auto|]; split; [reflexivity|split; lra]]. }
    destruct Mid as (k' & [->| ->] & -> & M1 & M2); cbn [chamferRaw nth Nat.add lerp vx vy] in M1, M2 |- *.
    + left. replace (lerp _ _ _) with (mkV 85 50); [exact Clear|]. unfold lerp. apply vec_eq; cbn [vx vy]; lra.
    + right. replace (lerp _ _ _) with (mkV 86 85); [exact Close|]. unfold lerp. apply vec_eq; cbn [vx vy]; lra.
Qed.

(** ** The offset to the outside: five edges and five arcs *)
Lemma out_tags : rawTags chamfer (- (15)) = [Off 0; Arc 0; Off 1; Arc 1; Off 2; Arc 2; Off 3; Arc 3; Off 4; Arc 4].
Proof.
  unfold rawTags. cbn [length vertexes chamfer Nat.sub seq flat_map]. unfold cornerTags, met, back. nums.
  assert (B : Rltb (- (15)) 0 = true /\ Rltb (- (15) / 2) 0 = true /\ Rltb (- (15) / 3) 0 = true) by (repeat split; apply Rltb_spec; lra). destruct B as (-> & -> & ->). reflexivity.
Qed.

Lemma out_far dual q : createRawOffsetPline chamfer (- (15)) = Ok dual -> onPath dual q -> clearBy chamfer 15 q -> 15 <= vx q <= 85 -> 15 <= vy q <= 85 -> False.
Proof.
  intros Er O Cl Hx Hy. pose proof (raw_closed chamfer _ dual cham_out Er) as Hc. destruct O as (v1 & v2 & H & O). destruct (at_seg _ _ _ Hc H) as (k & Hk & -> & ->). clear H.
  apply onSeg_path in O. destruct O as (t & Ht & Eq). change (q = seg dual k t) in Eq. assert (Hk' : (k < 10)%nat) by (rewrite (raw_len chamfer _ dual cham_out Er), out_tags in Hk; exact Hk).
  assert (Tg : tagAt chamfer (- (15)) k = nth k [Off 0; Arc 0; Off 1; Arc 1; Off 2; Arc 2; Off 3; Arc 3; Off 4; Arc 4] (Off 0)) by (unfold tagAt; now rewrite out_tags).
  assert (Rot : forall c a z, (vx (rot c a z) - vx c) * (vx (rot c a z) - vx c) + (vy (rot c a z) - vy c) * (vy (rot c a z) - vy c) = (vx z - vx c) * (vx z - vx c) + (vy z - vy c) * (vy z - vy c)).
  { intros c a z. unfold rot. cbn [vx vy]. pose proof (sin2_cos2 a) as S. unfold Rsqr in S. transitivity ((sin a * sin a + cos a * cos a) * ((vx z - vx c) * (vx z - vx c) + (vy z - vy c) * (vy z - vy c))); [ring|rewrite S; ring]. }
  assert (Arcs : forall j, tagAt chamfer (- (15)) k = Arc j -> exists z, z = edgePt chamfer (- (15)) j (len chamfer j) /\ (vx q - vx (pt chamfer (S j))) * (vx q - vx (pt chamfer (S j))) + (vy q - vy (pt chamfer (S j))) * (vy q - vy (pt chamfer (S j))) = (vx z - vx (pt chamfer (S j))) * (vx z - vx (pt chamfer (S j))) + (vy z - vy (pt chamfer (S j))) * (vy z - vy (pt chamfer (S j)))).
  { intros j Ej. destruct (seg_arc chamfer _ dual cham_out Er k j Hk Ej) as (_ & th & _ & _ & Hs). rewrite Hs in Eq. eexists. split; [reflexivity|]. rewrite Eq. apply Rot. }
  assert (Offs : forall j, tagAt chamfer (- (15)) k = Off j -> exists l, q = edgePt chamfer (- (15)) j l /\ 0 <= l <= len chamfer j).
  { intros j Ej. rewrite (seg_off chamfer _ dual cham_out Er k j t Hk Ej) in Eq. eexists. split; [exact Eq|].
    assert (Tz : trimC chamfer (- (15)) (before chamfer j) = 0 /\ trimC chamfer (- (15)) j = 0).
    { unfold trimC, trim. destruct (cham_idx j) as (i & Hi & E & B). rewrite (E 0%nat : pt chamfer j = _), (E 1%nat : pt chamfer (S j) = _), (E 2%nat : pt chamfer (S (S j)) = _), (B 0%nat : pt chamfer (before chamfer j) = _), (B 1%nat : pt chamfer (S (before chamfer j)) = _), (B 2%nat : pt chamfer (S (S (before chamfer j))) = _).
      five i Hi; nums; auto. }
    destruct Tz as [-> ->]. unfold len. pose proof (dist_nonneg (pt chamfer j) (pt chamfer (S j))) as Dn. revert Dn. generalize (dist (pt chamfer j) (pt chamfer (S j))). intros D Dn. assert (0 <= t * D) by (apply Rmult_le_pos; lra). assert (t * D <= 1 * D) by (apply Rmult_le_compat_r; lra). lra. }
  clear Eq. unfold edgePt, len in *.
  do 10 (destruct k as [|k]; [cbn [nth] in Tg; try (destruct (Offs _ Tg) as (l & -> & Hl); revert Hl Hx Hy; clear; nums; lra); destruct (Arcs _ Tg) as (z & -> & Hz); revert Hz Hx Hy; clear; destruct q as [x y]; nums; intros; nra|]). lia.
Qed.

Lemma cham_hits vs : map pos vs = chamferRaw -> (forall v, In v vs -> isLine v) -> noFalseHits chamfer (mkPline true vs) 15.
Proof.
  intros Hpos Hline k a b v w u1 u2 Hk Ha Hab Hb Hp Hbu Hf Hcl Hin. cbn [vertexes] in Hk. rewrite (vs_len vs Hpos) in Hk. rewrite (Rabs_right 15) in Hcl by lra.
  destruct (in_vert vs Hpos Hline k 0) as (_ & L0 & P0). destruct (in_vert vs Hpos Hline k 1) as (_ & _ & P1).
  assert (Eu : isLine u1 /\ 10 <= dist (pos u1) (pos u2) <= 100 /\ ((pos u1 = Q0 /\ pos u2 = Q1) \/ (pos u1 = Q1 /\ pos u2 = Q2) \/ (pos u1 = Q2 /\ pos u2 = Q3) \/ (pos u1 = Q3 /\ pos u2 = Q4) \/ (pos u1 = Q4 /\ pos u2 = Q0))).
  { split; [destruct Hin as [E|[E|[E|[E|[E|[]]]]]]; injection E as <- <-; apply cham_line; cbn; tauto|].
    destruct Hin as [E|[E|[E|[E|[E|[]]]]]]; injection E as <- <-; (split; [cbn [pos mkVertex]; nums; lra|cbn [pos mkVertex]; tauto]). }
  destruct Eu as (Lu & Du & Eu).
  assert (Ek : exists A B, pos (vert (mkPline true vs) k 0) = A /\ pos (vert (mkPline true vs) k 1) = B /\ 2 <= dist A B <= 72 /\ ((A = mkV 15 15 /\ B = mkV 85 15) \/ (A = mkV 85 15 /\ B = mkV 85 (173 / 2)) \/ (A = mkV 85 (173 / 2) /\ B = mkV 87 85) \/ (A = mkV 87 85 /\ B = mkV 15 85) \/ (A = mkV 15 85 /\ B = mkV 15 15))).
  { rewrite P0, P1. five k Hk; eexists; eexists; (split; [reflexivity|]); (split; [reflexivity|]); cbn [chamferRaw nth Nat.modulo Nat.divmod Nat.add Nat.sub fst snd]; (split; [|tauto]);
      [rewrite (dist_is _ _ 70)|rewrite (dist_is _ _ (143 / 2))|rewrite (dist_is _ _ (5 / 2))|rewrite (dist_is _ _ 72)|rewrite (dist_is _ _ 70)]; cbn [vx vy]; lra. }
  destruct Ek as (A & B & EA & EB & DAB & Ek). clear P0 P1.
  apply (piece_none (vert (mkPline true vs) k 0) (vert (mkPline true vs) k 1) u1 u2 a b v w 15); auto.
  - rewrite EA, EB. intros E. rewrite E, (dist_is B B 0) in DAB by (lra || ring). lra.
  - intros t q Ht Oq. apply Hcl; [auto|]. exists u1, u2. auto.
  - rewrite EA, EB. unfold clearPair. split; [unfold eps; lra|]. unfold eps. revert DAB Du Eu Ek. clear. generalize (dist A B) (dist (pos u1) (pos u2)). intros D1 D2 H1 _ Eu Ek.
    destruct Eu as [[-> ->]|[[-> ->]|[[-> ->]|[[-> ->]|[-> ->]]]]]; destruct Ek as [[-> ->]|[[-> ->]|[[-> ->]|[[-> ->]|[-> ->]]]]]; unfold cross; cbn [vx vy];
      first [left; absc|right; split; [lra|absc]].
Qed.

(** ** All hypotheses of C57 and C58 are met *)
Example C58_chamfer : exists raw dual, createRawOffsetPline chamfer 15 = Ok raw /\ createRawOffsetPline chamfer (- (15)) = Ok dual /\
  clearRaw chamfer 15 /\ clearRaw chamfer (- (15)) /\ indexable chamfer /\ 1 / 10000 <= Rabs 15 /\ (48 * Z.of_nat (length (vertexes chamfer)) * Z.of_nat (length (vertexes chamfer)) <= 2 ^ 24)%Z /\
  spread raw /\ offsetPosition false raw dual /\ decisive chamfer raw 15 (cutPoint false raw dual) /\ (forall q, clearBy chamfer (Rabs 15) q -> ~ common raw dual q) /\ noFalseHits chamfer raw 15 /\
  (exists q, onPath raw q /\ cutPoint false raw dual q) /\ (exists q, onPath raw q /\ ~ clearBy chamfer (Rabs 15) q).
Proof.
  destruct cham_raw as (vs & Er & Hpos & Hline). destruct (raw_structure chamfer (- (15)) cham_out) as (ws & Ed & _). exists (mkPline true vs), (mkPline true ws).
  split; [exact Er|]. split; [exact Ed|]. split; [apply cham_in|]. split; [apply cham_out|]. split; [split; [cbn; lia|split; [cbn; lia|left; cbn; lia]]|]. split; [rewrite Rabs_right; lra|]. split; [cbn; lia|].
  assert (S0 : forall k t, 0 <= t <= 1 -> (k < 5)%nat -> onPath (mkPline true vs) (seg (mkPline true vs) k t)).
  { intros k t Ht Hk. apply seg_onPath; [cbn [vertexes]; rewrite (vs_len vs Hpos); lia|reflexivity|auto]. }
  split; [left; rewrite segCount_eq; cbn [isClosed vertexes]; rewrite (vs_len vs Hpos); lia|].
  split; [now apply in_position|]. split; [now apply in_decisive|]. rewrite (Rabs_right 15) by lra. split; [|split; [now apply cham_hits|split]].
  - intros q Cl [O1 O2]. assert (Bx : 0 <= vx q <= 92 /\ 0 <= vy q <= 94).
    { destruct O1 as (v1 & v2 & H & O). destruct (in_segs vs Hpos _ _ H) as (k & Hk & -> & ->). apply onSeg_path in O. destruct O as (t & Ht & ->). change (segPath _ _ t) with (seg (mkPline true vs) k t). rewrite (in_seg vs Hpos Hline).
      five k Hk; cbn [chamferRaw nth Nat.modulo Nat.divmod Nat.add Nat.sub fst snd lerp vx vy]; lra. }
    destruct q as [x y]. cbn [vx vy] in Bx. pose proof (cham_box x y Cl (proj1 Bx) (proj2 Bx)) as Bq. apply (out_far _ (mkV x y) Ed O2 Cl); apply Bq.
  - assert (E1 : seg (mkPline true vs) 1 (140 / 143) = mkV 85 85) by (rewrite (in_seg vs Hpos Hline); cbn [chamferRaw nth Nat.modulo Nat.divmod Nat.add Nat.sub fst snd]; unfold lerp; apply vec_eq; cbn [vx vy]; lra).
    assert (E3 : seg (mkPline true vs) 3 (1 / 36) = mkV 85 85) by (rewrite (in_seg vs Hpos Hline); cbn [chamferRaw nth Nat.modulo Nat.divmod Nat.add Nat.sub fst snd]; unfold lerp; apply vec_eq; cbn [vx vy]; lra).
    exists (mkV 85 85). split; [rewrite <- E1; apply S0; [lra|lia]|]. left. exists 1%nat, 3%nat. cbn [vertexes]. rewrite (vs_len vs Hpos). split; [lia|]. split; [lia|]. split; [lia|].
    split; [apply onSeg_path; exists (140 / 143); split; [lra|]; now symmetry|]. split; [apply onSeg_path; exists (1 / 36); split; [lra|]; now symmetry|].
    unfold sharedVertex. cbn [vertexes]. rewrite (vs_len vs Hpos). intros [[E _]|[E _]]; discriminate.
  - assert (E3 : seg (mkPline true vs) 3 (1 / 72) = mkV 86 85) by (rewrite (in_seg vs Hpos Hline); cbn [chamferRaw nth Nat.modulo Nat.divmod Nat.add Nat.sub fst snd]; unfold lerp; apply vec_eq; cbn [vx vy]; lra).
    exists (mkV 86 85). split; [rewrite <- E3; apply S0; [lra|lia]|]. intros Cl. pose proof (cham_box 86 85 Cl). lra.
Qed.
