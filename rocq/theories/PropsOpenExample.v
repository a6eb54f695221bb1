(** * A concrete case for C64 and C65: a hook whose end comes close to its own offset *)
From Coq Require Import ZArith Reals Lra Lia List Bool Arith Permutation Sorted.
From Verif Require Import Base Num MathUtils PlineSegment SpatialIndex Polyline Intersects Combine Offset StdLaws RGeom Spec PropsMath ArcGeom Polar PropsSegment PropsClosest PropsIntr PropsPlineIntr PropsPolyline Turning PropsWinding PropsRegion PropsPlineIndex PropsFindIntr PropsExtents PropsCoincident PropsSlices PropsStitch PropsCombine PropsPieces PropsTrace PropsBoolOps PropsOffset PropsOffsetSlices PropsOffsetSegs PropsRawOffset PropsJoins PropsRawStructure PropsRawGeom PropsRawPoints PropsParallelTotal PropsEndCuts PropsOffsetRuns PropsOffsetCuts PropsCover PropsRunPoints PropsOffsetParts PropsOffsetResult PropsOffsetConst PropsOffsetExact PropsOffsetHits PropsOffsetExample PropsOpenTrace PropsOpenRuns PropsOpenParts PropsOpenCuts PropsOpenResult PropsOpenRaw PropsOpenPoints PropsOpenConst PropsOpenExact PropsOpenHits.
Import ListNotations.
Open Scope R_scope.

Definition hook : polyline := mkPline false [mkVertex 0 0 0; mkVertex 10 0 0; mkVertex 10 (8 / 5) 0; mkVertex 4 (8 / 5) 0].
(** the offset by 1 to the inside, before cutting *)
Definition hookRaw : list vec := [mkV 0 1; mkV 9 1; mkV 9 (3 / 5); mkV 4 (3 / 5)].
Notation H0' := (mkV 0 0). Notation H1' := (mkV 10 0). Notation H2' := (mkV 10 (8 / 5)). Notation H3' := (mkV 4 (8 / 5)).

Lemma hd01 : dist H0' H1' = 10. Proof. apply dist_is; cbn [vx vy]; lra. Qed.
Lemma hd12 : dist H1' H2' = 8 / 5. Proof. apply dist_is; cbn [vx vy]; lra. Qed.
Lemma hd23 : dist H2' H3' = 6. Proof. apply dist_is; cbn [vx vy]; lra. Qed.
Lemma hs0 d : setback d H0' H1' H2' = d. Proof. unfold setback, turn, dotp. rewrite hd01, hd12. cbn [vx vy]. field. Qed.
Lemma hs1 d : setback d H1' H2' H3' = d. Proof. unfold setback, turn, dotp. rewrite hd12, hd23. cbn [vx vy]. field. Qed.
Lemma ho0 d l : offPt d H0' H1' l = mkV l d. Proof. unfold offPt, nrmX, nrmY. rewrite hd01. cbn [vx vy]. apply vec_eq; cbn [vx vy]; rfield. Qed.
Lemma ho1 d l : offPt d H1' H2' l = mkV (10 - d) l. Proof. unfold offPt, nrmX, nrmY. rewrite hd12. cbn [vx vy]. apply vec_eq; cbn [vx vy]; rfield. Qed.
Lemma ho2 d l : offPt d H2' H3' l = mkV (10 - l) (8 / 5 - d). Proof. unfold offPt, nrmX, nrmY. rewrite hd23. cbn [vx vy]. apply vec_eq; cbn [vx vy]; rfield. Qed.
Lemma hm0 : metb 1 H0' H1' H2' = true. Proof. apply metb_yes; rewrite hs0, ?hd01, ?hd12; lra. Qed.
Lemma hm1 : metb 1 H1' H2' H3' = true. Proof. apply metb_yes; rewrite hs1, ?hd12, ?hd23; lra. Qed.
Lemma hk0 : metb (- (1)) H0' H1' H2' = false. Proof. apply metb_no; rewrite hs0; lra. Qed.
Lemma hk1 : metb (- (1)) H1' H2' H3' = false. Proof. apply metb_no; rewrite hs1; lra. Qed.
Lemma hp0 : pt hook 0 = H0'. Proof. reflexivity. Qed.
Lemma hp1 : pt hook 1 = H1'. Proof. reflexivity. Qed.
Lemma hp2 : pt hook 2 = H2'. Proof. reflexivity. Qed.
Lemma hp3 : pt hook 3 = H3'. Proof. reflexivity. Qed.

Ltac hnums := cbn [Nat.add Nat.sub length vertexes hook Nat.ltb Nat.leb]; rewrite ?hp0, ?hp1, ?hp2, ?hp3, ?hd01, ?hd12, ?hd23, ?hs0, ?hs1, ?hm0, ?hm1, ?hk0, ?hk1, ?ho0, ?ho1, ?ho2; cbn [vx vy].
Ltac two i Hi := destruct i as [|[|i]]; [| |cbn in Hi; lia].
Ltac three i Hi := destruct i as [|[|[|i]]]; [| | |cbn in Hi; lia].

Lemma hook_line v : In v (vertexes hook) -> isLine v.
Proof. intros [<-|[<-|[<-|[<-|[]]]]]; unfold isLine; cbn; rewrite Rabs_R0; lra. Qed.

Lemma hook_in : clearOpen hook 1.
Proof.
  split.
  - reflexivity.
  - cbn; lia.
  - apply hook_line.
  - intros j Hj. three j Hj; hnums; farc.
  - intros j Hj. unfold clearCorner. two j Hj; unfold turn; hnums; (split; [absc|right; left; lra]).
  - intros j Hj. unfold startO, endO, edgePt, trimS, trimE, trimC, trim, len. three j Hj; hnums; farc.
  - intros j Hj. unfold met. two j Hj; hnums; discriminate.
Qed.

Lemma hook_out : clearOpen hook (- (1)).
Proof.
  split.
  - reflexivity.
  - cbn; lia.
  - apply hook_line.
  - intros j Hj. three j Hj; hnums; farc.
  - intros j Hj. unfold clearCorner, eps. two j Hj; unfold turn; hnums; rewrite Rabs_Ropp, (Rabs_right 1) by lra; (split; [absc|left; lra]).
  - intros j Hj. unfold startO, endO, edgePt, trimS, trimE, trimC, trim, len. three j Hj; hnums; farc.
  - intros j Hj _. unfold startO, endO, edgePt, len. two j Hj; hnums; farc.
Qed.

(** ** The raw offsets *)
Lemma hook_raw : exists vs, createRawOffsetPline hook 1 = Ok (mkPline false vs) /\ map pos vs = hookRaw /\ forall v, In v vs -> isLine v.
Proof.
  destruct (open_raw_structure hook 1 hook_in) as (vs & z & E & F & Z & Lz). exists (vs ++ [z]). split; [exact E|].
  assert (T : openTags hook 1 = [Off 0; Off 1; Off 2]).
  { unfold openTags. cbn [length vertexes hook Nat.sub seq flat_map]. unfold cornerTags, met. hnums. reflexivity. }
  rewrite T in F. inversion F as [|? v0 ? ? A0 F0]; subst. inversion F0 as [|? v1 ? ? A1 F1]; subst. inversion F1 as [|? v2 ? ? A2 F2]; subst. inversion F2; subst.
  unfold startsO, startO, endO, edgePt, trimS, trimE, trimC, trim, len in *. destruct A0 as [P0 L0]. destruct A1 as [P1 L1]. destruct A2 as [P2 L2]. split.
  - cbn [map app]. rewrite P0, P1, P2, Z. unfold hookRaw. hnums. repeat (apply f_equal2; [apply vec_eq; cbn [vx vy]; lra|]). reflexivity.
  - intros v [<-|[<-|[<-|[<-|[]]]]]; auto.
Qed.

Lemma hook_outTags : openTags hook (- (1)) = [Off 0; Arc 0; Off 1; Arc 1; Off 2].
Proof.
  unfold openTags. cbn [length vertexes hook Nat.sub seq flat_map]. unfold cornerTags, met, back. hnums.
  rewrite (proj2 (Rltb_spec (- (1)) 0)) by lra. reflexivity.
Qed.

Lemma dist_sq a b r : 0 <= r -> dist a b = r <-> (vx a - vx b) * (vx a - vx b) + (vy a - vy b) * (vy a - vy b) = r * r.
Proof.
  intros Hr. split; [intros E|intros E; apply dist_is; [auto|rewrite <- E; ring]].
  assert (D : dist a b * dist a b = (vx a - vx b) ^ 2 + (vy a - vy b) ^ 2) by (unfold dist; apply sqrt_sqrt; pose proof (sq_nonneg (vx a - vx b)); pose proof (sq_nonneg (vy a - vy b)); lra).
  rewrite E in D. lra.
Qed.

(** the point of a line nearest to a point is its foot *)
Lemma touches_foot p0 p1 c r s : touchesAt p0 p1 c r s -> s * len2 p0 p1 = (vx c - vx p0) * (vx p1 - vx p0) + (vy c - vy p0) * (vy p1 - vy p0).
Proof.
  intros [H _]. set (L := len2 p0 p1). set (D := (vx c - vx p0) * (vx p1 - vx p0) + (vy c - vy p0) * (vy p1 - vy p0)).
  assert (L0 : 0 <= L) by (unfold L, len2; pose proof (sq_nonneg (vx p1 - vx p0)); pose proof (sq_nonneg (vy p1 - vy p0)); lra).
  assert (Q : forall t, L * s * s - 2 * D * s <= L * t * t - 2 * D * t).
  { intros t. specialize (H t). unfold dist in H. apply sqrt_le_0 in H; [|pose proof (pow2_ge_0 (vx c - vx (lerp p0 p1 s))); pose proof (pow2_ge_0 (vy c - vy (lerp p0 p1 s))); lra|pose proof (pow2_ge_0 (vx c - vx (lerp p0 p1 t))); pose proof (pow2_ge_0 (vy c - vy (lerp p0 p1 t))); lra]. unfold lerp in H. cbn [vx vy] in H. unfold L, D, len2. match type of H with ?a <= ?b => assert (E : b - a = (L * t * t - 2 * D * t) - (L * s * s - 2 * D * s)) by (unfold L, D, len2; ring) end. unfold L, D, len2 in E. lra. }
  destruct (Req_dec L 0) as [E|Ne].
  - rewrite E in *. pose proof (Q (s + D)) as Q1. assert (D * D <= 0) by lra. assert (D = 0) by (apply Rsqr_0_uniq; unfold Rsqr; pose proof (sq_nonneg D); lra). lra.
  - pose proof (Q (D / L)) as Q1. assert (E : L * (D / L) * (D / L) - 2 * D * (D / L) = - (D * D / L)) by (field; auto). rewrite E in Q1.
    assert (E2 : (s * L - D) * (s * L - D) = L * (L * s * s - 2 * D * s + D * D / L)) by (field; auto). assert (L * (L * s * s - 2 * D * s + D * D / L) <= L * 0) by (apply Rmult_le_compat_l; lra).
    assert (s * L - D = 0) by (apply Rsqr_0_uniq; unfold Rsqr; pose proof (sq_nonneg (s * L - D)); lra). lra.
Qed.

(** points within a box away from the dual *)
Section Inside.
Variable vs : list vertex.
Hypothesis Hpos : map pos vs = hookRaw.
Hypothesis Hline : forall v, In v vs -> isLine v.
Let raw := mkPline false vs.

Lemma hvs_len : length vs = 4%nat.
Proof. rewrite <- (map_length pos), Hpos. reflexivity. Qed.

Lemma hin_at k : (k < 4)%nat -> isLine (at_ raw k) /\ pos (at_ raw k) = nth k hookRaw (pos vdflt).
Proof. intros Hk. unfold at_. cbn [raw vertexes]. split; [apply Hline, nth_In; rewrite hvs_len; lia|]. now rewrite <- Hpos, (map_nth pos). Qed.

Lemma hin_on k q : (k < 3)%nat -> onSeg (at_ raw k) (at_ raw (S k)) q <-> exists t, 0 <= t <= 1 /\ q = lerp (nth k hookRaw (pos vdflt)) (nth (S k) hookRaw (pos vdflt)) t.
Proof.
  intros Hk. destruct (hin_at k ltac:(lia)) as [L E]. destruct (hin_at (S k) ltac:(lia)) as [_ E1]. rewrite onSeg_path, <- E, <- E1. split; intros (t & Ht & ->); exists t; (split; [auto|]); [now apply segPath_line|now rewrite segPath_line].
Qed.

Lemma hin_segs v1 v2 : In (v1, v2) (pathSegs raw) -> exists k, (k < 3)%nat /\ v1 = at_ raw k /\ v2 = at_ raw (S k).
Proof.
  intros H. pose proof hvs_len as HL. unfold raw in *. clear raw Hpos Hline. destruct vs as [|w0 [|w1 [|w2 [|w3 [|w4 l]]]]]; try discriminate HL. cbn in H.
  destruct H as [E|[E|[E|[]]]]; injection E as <- <-; [exists 0%nat|exists 1%nat|exists 2%nat]; repeat split; lia.
Qed.

Lemma hin_box q : onPath raw q -> 0 <= vx q <= 9 /\ 3 / 5 <= vy q <= 1.
Proof.
  intros (v1 & v2 & H & O). destruct (hin_segs _ _ H) as (k & Hk & -> & ->). apply hin_on in O; [|auto]. destruct O as (t & Ht & ->). three k Hk; cbn [hookRaw nth lerp vx vy]; lra.
Qed.

Lemma hin_double q : ~ openDouble raw q.
Proof.
  intros (i & j & Hi & Hj & Ne & Oi & Oj & Ns). cbn [raw vertexes] in Hi, Hj. rewrite hvs_len in Hi, Hj. apply hin_on in Oi; [|lia]. apply hin_on in Oj; [|lia]. destruct Oi as (s & Hs & Es). destruct Oj as (t & Ht & Et).
  unfold followsAt in Ns. rewrite (proj2 (hin_at i ltac:(lia))), (proj2 (hin_at j ltac:(lia))) in Ns.
  pose proof (f_equal vx Es) as X1. pose proof (f_equal vy Es) as Y1. pose proof (f_equal vx Et) as X2. pose proof (f_equal vy Et) as Y2. clear Es Et. destruct q as [qx qy].
  three i Hi; three j Hj; try congruence; cbn [hookRaw nth lerp vx vy] in X1, Y1, X2, Y2, Ns;
    first [lra|apply Ns; left; split; [reflexivity|apply vec_eq; cbn [vx vy]; lra]|apply Ns; right; split; [reflexivity|apply vec_eq; cbn [vx vy]; lra]].
Qed.

Lemma hin_exact : exactOpen raw.
Proof.
  intros i j Hi Hj Ne. cbn [raw vertexes] in Hi, Hj. rewrite hvs_len in Hi, Hj.
  assert (G : exactPair (at_ raw i) (at_ raw (S i)) (at_ raw j) (at_ raw (S j))); [|destruct G as [G1 G2]; split; [exact G1|intros q _; apply G2]].
  apply decided_exact. split; [apply hin_at; lia|]. split; [apply hin_at; lia|].
  rewrite (proj2 (hin_at i ltac:(lia))), (proj2 (hin_at j ltac:(lia))), (proj2 (hin_at (S i) ltac:(lia))), (proj2 (hin_at (S j) ltac:(lia))).
  three i Hi; three j Hj; try congruence; cbn [hookRaw nth]; unfold cross, eps; cbn [vx vy];
   first [left; split; [lra|absc]
         |right; split; [absc|]; intros s t E Hs Ht; pose proof (f_equal vx E) as X; pose proof (f_equal vy E) as Y; unfold lerp in X, Y; cbn [vx vy] in X, Y; lra].
Qed.

Lemma hin_circle c : c = H0' \/ c = H3' -> exactCircle raw c (Rabs 1).
Proof.
  intros Hc i Hi p. rewrite (Rabs_right 1) by lra. cbn [raw vertexes] in Hi. rewrite hvs_len in Hi. destruct (hin_at i ltac:(lia)) as [L E]. destruct (hin_at (S i) ltac:(lia)) as [_ E1]. split.
  - intros [(_ & t & Ht & Ep & Hd)|(N & _)]; [|contradiction]. rewrite E, E1 in *. assert (D : dist c p = 1).
    { destruct Hd as [Hd|Hd]; [exact Hd|]. pose proof (touches_foot _ _ _ _ _ Hd) as F. destruct Hd as [_ Hw]. unfold eps in Hw. revert F Hw. rewrite Ep. destruct Hc as [-> | ->]; three i Hi; cbn [hookRaw nth]; unfold len2, power, lerp; cbn [vx vy]; intros F Hw; try (exfalso; lra).
      + exfalso. assert (t = 4 / 9) by lra. subst t. revert Hw. rewrite Rabs_left by lra. lra.
      + assert (t = 1) by lra. subst t. apply dist_is; cbn [vx vy]; lra. }
    split; [exact D|]. split; [apply hin_on; [lia|]; exists t; split; [lra|auto]|].
    intros E'. rewrite Ep in E'. pose proof (f_equal vx E') as X. pose proof (f_equal vy E') as Y. three i Hi; cbn [hookRaw nth lerp vx vy] in X, Y; lra.
  - intros Hd O Np. split; [exact Hd|]. left. split; [exact L|]. rewrite E, E1 in *. split; [unfold eps, len2; three i Hi; cbn [hookRaw nth vx vy]; lra|].
    apply hin_on in O; [|lia]. destruct O as (t & Ht & ->). exists t. apply dist_sq in Hd; [|lra]. revert Hd. destruct Hc as [-> | ->]; three i Hi; cbn [hookRaw nth lerp vx vy] in Np |- *; intros Hd; try (exfalso; nra).
    + exfalso. apply Np. assert (t * t = 0) by lra. assert (t = 0) by (apply Rsqr_0_uniq; auto). subst t. unfold lerp. apply vec_eq; cbn [vx vy]; lra.
    + assert (Hq : (45 * t - 16) * (45 * t - 24) = 0) by lra. apply Rmult_integral in Hq. split; [split; [destruct Hq; lra|lra]|]. split; [reflexivity|]. intros s Hs. pose proof (touches_foot _ _ _ _ _ Hs) as F. destruct Hs as [_ Hw]. exfalso. revert F Hw. unfold len2, power, lerp, eps; cbn [vx vy]. intros F Hw.
      assert (s = 4 / 9) by lra. subst s. revert Hw. rewrite Rabs_left by lra. lra.
    + assert (Hq : (t - 1) * (t - 1) = 0) by lra. assert (t = 1) by (apply Rmult_integral in Hq; destruct Hq; lra). subst t. split; [lra|]. split; [reflexivity|]. intros s Hs. pose proof (touches_foot _ _ _ _ _ Hs) as F. revert F. unfold len2. cbn [vx vy]. intros F. lra.
Qed.

(** ** The raw offset to the outside keeps away from the one to the inside *)
Variable dual : polyline.
Hypothesis Ed : createRawOffsetPline hook (- (1)) = Ok dual.

Lemma hdual_len : length (vertexes dual) = 6%nat.
Proof. rewrite (oraw_len hook _ dual hook_out Ed), hook_outTags. reflexivity. Qed.

Lemma hdual_segs v1 v2 : In (v1, v2) (pathSegs dual) -> exists k, (k < 5)%nat /\ v1 = vert dual k 0 /\ v2 = vert dual k 1.
Proof.
  pose proof hdual_len as HL. pose proof (oraw_open hook _ dual hook_out Ed) as Ho. pose proof (oat hook _ dual hook_out Ed) as Hat. destruct dual as [cl ws]. cbn [isClosed vertexes] in *. subst cl.
  intros H. assert (G : exists k, (k < 5)%nat /\ v1 = at_ (mkPline false ws) k /\ v2 = at_ (mkPline false ws) (S k)).
  { clear -HL H. destruct ws as [|w0 [|w1 [|w2 [|w3 [|w4 [|w5 [|w6 l]]]]]]]; try discriminate HL. cbn in H.
    destruct H as [E|[E|[E|[E|[E|[]]]]]]; injection E as <- <-; [exists 0%nat|exists 1%nat|exists 2%nat|exists 3%nat|exists 4%nat]; repeat split; lia. }
  destruct G as (k & Hk & -> & ->). exists k. split; [auto|]. destruct (Hat k ltac:(lia)) as [-> ->]. auto.
Qed.

Lemma hdual_tag k : otagAt hook (- (1)) k = nth k [Off 0; Arc 0; Off 1; Arc 1; Off 2] (Off 0).
Proof. unfold otagAt. now rewrite hook_outTags. Qed.

(** the straight segments *)
Lemma hdual_line k : (k = 0 \/ k = 2 \/ k = 4)%nat -> isLine (vert dual k 0) /\
  pos (vert dual k 0) = match k with 0%nat => mkV 0 (- (1)) | 2%nat => mkV 11 0 | _ => mkV 10 (13 / 5) end /\ pos (vert dual k 1) = match k with 0%nat => mkV 10 (- (1)) | 2%nat => mkV 11 (8 / 5) | _ => mkV 4 (13 / 5) end.
Proof.
  intros Hk. assert (Hl : (S k < length (vertexes dual))%nat) by (rewrite hdual_len; lia). pose proof (otag_ends hook _ dual hook_out Ed k Hl) as G. rewrite hdual_tag in G.
  destruct Hk as [->|[->| ->]]; cbn [nth] in G; destruct G as [[P L] Q]; (split; [exact L|]); rewrite P, Q; unfold startO, endO, edgePt, trimS, trimE, trimC, trim, len; hnums; (split; apply vec_eq; cbn [vx vy]; lra).
Qed.

(** the arcs *)
Lemma hdual_arc k : (k = 1 \/ k = 3)%nat -> okArc (vert dual k 0) (vert dual k 1) /\ radOf (vert dual k 0) (vert dual k 1) = 1 /\ far (pos (vert dual k 0)) (pos (vert dual k 1)) /\
  forall q, onSeg (vert dual k 0) (vert dual k 1) q -> (vx q - 10) * (vx q - 10) + (vy q - match k with 1%nat => 0 | _ => 8 / 5 end) * (vy q - match k with 1%nat => 0 | _ => 8 / 5 end) = 1.
Proof.
  intros Hk. assert (Hl : (S k < length (vertexes dual))%nat) by (rewrite hdual_len; lia). pose proof (otag_ends hook _ dual hook_out Ed k Hl) as G. rewrite hdual_tag in G.
  assert (Nl : ~ isLine (vert dual k 0)) by (destruct Hk as [->| ->]; cbn [nth] in G; apply (proj1 (proj2 (proj1 G)))). destruct (oraw_radius hook _ dual hook_out Ed k Hl Nl) as [Ok Hr]. rewrite Rabs_Ropp, (Rabs_right 1) in Hr by lra.
  split; [exact Ok|]. split; [exact Hr|]. split; [apply (oraw_far hook _ dual hook_out Ed k Hl)|]. intros q O. apply onSeg_path in O. destruct O as (t & Ht & ->). change (segPath _ _ t) with (seg dual k t).
  assert (Rot : forall c a z, (vx (rot c a z) - vx c) * (vx (rot c a z) - vx c) + (vy (rot c a z) - vy c) * (vy (rot c a z) - vy c) = (vx z - vx c) * (vx z - vx c) + (vy z - vy c) * (vy z - vy c)).
  { intros c a z. unfold rot. cbn [vx vy]. pose proof (sin2_cos2 a) as S. unfold Rsqr in S. transitivity ((sin a * sin a + cos a * cos a) * ((vx z - vx c) * (vx z - vx c) + (vy z - vy c) * (vy z - vy c))); [ring|rewrite S; ring]. }
  destruct Hk as [->| ->].
  - destruct (oseg_arc hook _ dual hook_out Ed 1 0 Hl (hdual_tag 1)) as (_ & th & _ & _ & Hs). rewrite Hs. pose proof (Rot (pt hook 1) (t * th) (edgePt hook (- (1)) 0 (len hook 0))) as R. set (z := rot _ _ _) in *. clearbody z. unfold edgePt, len in R. revert R. hnums. intros R. lra.
  - destruct (oseg_arc hook _ dual hook_out Ed 3 1 Hl (hdual_tag 3)) as (_ & th & _ & _ & Hs). rewrite Hs. pose proof (Rot (pt hook 2) (t * th) (edgePt hook (- (1)) 1 (len hook 1))) as R. set (z := rot _ _ _) in *. clearbody z. unfold edgePt, len in R. revert R. hnums. intros R. lra.
Qed.

Lemma hdual_away k p q : (k < 5)%nat -> onPath raw p -> onSeg (vert dual k 0) (vert dual k 1) q -> 1 / 50 <= dist p q.
Proof.
  intros Hk Hp Hq. apply hin_box in Hp. assert (Cases : (k = 0 \/ k = 2 \/ k = 4)%nat \/ (k = 1 \/ k = 3)%nat) by lia. destruct Cases as [Hk'|Hk'].
  - destruct (hdual_line k Hk') as (L & P & Q). apply onSeg_path in Hq. destruct Hq as (t & Ht & ->). rewrite segPath_line, P, Q by auto. apply dist_coord. destruct Hk' as [->|[->| ->]]; unfold lerp; cbn [vx vy]; [right; rewrite Rabs_right by lra|left; rewrite Rabs_left by lra|right; rewrite Rabs_left by lra]; lra.
  - destruct (hdual_arc k Hk') as (_ & _ & _ & A). apply A in Hq. clear A. apply Rnot_lt_le. intros Lt.
    assert (D : (vx p - vx q) * (vx p - vx q) + (vy p - vy q) * (vy p - vy q) < 1 / 50 * (1 / 50)).
    { assert (D2 : dist p q * dist p q = (vx p - vx q) ^ 2 + (vy p - vy q) ^ 2) by (unfold dist; apply sqrt_sqrt; pose proof (pow2_ge_0 (vx p - vx q)); pose proof (pow2_ge_0 (vy p - vy q)); lra).
      pose proof (dist_nonneg p q). assert (dist p q * dist p q < 1 / 50 * (1 / 50)) by (apply Rmult_le_0_lt_compat; lra). lra. }
    assert (B : forall u w, u * u + w * w < 1 / 50 * (1 / 50) -> - (1 / 50) <= u <= 1 / 50 /\ - (1 / 50) <= w <= 1 / 50) by (clear; intros; nra). apply B in D. clear B Lt.
    destruct p as [px0 py0], q as [qx qy]. cbn [vx vy] in *. assert (B1 : 9 / 10 <= 10 - qx) by lra. destruct Hk' as [->| ->].
    + assert (B2 : 1 / 2 <= qy) by lra. clear -Hq B1 B2. nra.
    + assert (B2 : 1 / 2 <= 8 / 5 - qy) by lra. clear -Hq B1 B2. nra.
Qed.

Lemma hno_common q : ~ common raw dual q.
Proof.
  intros [O1 (v1 & v2 & H & O2)]. destruct (hdual_segs _ _ H) as (k & Hk & -> & ->). pose proof (hdual_away k q q Hk O1 O2) as D. rewrite (dist_is q q 0) in D by (lra || ring). lra.
Qed.

Lemma exact_none a1 a2 b1 b2 : intrPlineSegs a1 a2 b1 b2 = NoIntersect -> (forall q, onSeg a1 a2 q -> onSeg b1 b2 q -> False) -> exactPair a1 a2 b1 b2.
Proof. intros E H. unfold exactPair, overlapsOf, crossPoints. rewrite E. split; [reflexivity|]. intros q. split; [intros []|]. intros [H1 H2]. exact (H q H1 H2). Qed.

Lemma intr_swap a1 a2 b1 b2 : isLine a1 -> ~ isLine b1 -> intrPlineSegs a1 a2 b1 b2 = intrPlineSegs b1 b2 a1 a2.
Proof.
  intros L N. unfold intrPlineSegs. assert (bulgeIsZero a1 = true) as -> by now apply bulgeIsZero_R. assert (bulgeIsZero b1 = false) as -> by (apply not_true_iff_false; now rewrite bulgeIsZero_R). reflexivity.
Qed.

Lemma hin_onPath k q : (k < 3)%nat -> onSeg (at_ raw k) (at_ raw (S k)) q -> onPath raw q.
Proof. intros Hk O. exists (at_ raw k), (at_ raw (S k)). split; [|exact O]. apply open_in; [reflexivity|cbn [raw vertexes]; rewrite hvs_len; lia|cbn [raw vertexes]; rewrite hvs_len; lia]. Qed.

Lemma hdual_exact a1 a2 b1 b2 : In (a1, a2) (pathSegs raw) -> In (b1, b2) (pathSegs dual) -> exactPair a1 a2 b1 b2.
Proof.
  intros Ha Hb. destruct (hin_segs _ _ Ha) as (i & Hi & -> & ->). destruct (hdual_segs _ _ Hb) as (k & Hk & -> & ->). destruct (hin_at i ltac:(lia)) as [L E]. destruct (hin_at (S i) ltac:(lia)) as [_ E1].
  assert (Cases : (k = 0 \/ k = 2 \/ k = 4)%nat \/ (k = 1 \/ k = 3)%nat) by lia. destruct Cases as [Hk'|Hk'].
  - apply decided_exact. destruct (hdual_line k Hk') as (L' & P & Q). split; [exact L|]. split; [exact L'|]. rewrite E, E1, P, Q.
    three i Hi; destruct Hk' as [->|[->| ->]]; cbn [hookRaw nth]; unfold cross, eps; cbn [vx vy];
     first [left; split; [lra|absc]
           |right; split; [absc|]; intros s t E2 Hs Ht; pose proof (f_equal vx E2) as X; pose proof (f_equal vy E2) as Y; unfold lerp in X, Y; cbn [vx vy] in X, Y; lra].
  - destruct (hdual_arc k Hk') as (Ok & Hr & Hf & _). apply exact_none.
    + rewrite intr_swap by (auto; apply Ok). assert (B : 1 / 100 <= dist (pos (at_ raw i)) (pos (at_ raw (S i))) <= 9).
      { rewrite E, E1. three i Hi; cbn [hookRaw nth]; [rewrite (dist_is _ _ 9)|rewrite (dist_is _ _ (2 / 5))|rewrite (dist_is _ _ 5)]; cbn [vx vy]; lra. }
      apply (arc_none _ _ _ _ (1 / 50)); auto; [rewrite Hr; lra|lra|lra|unfold eps; lra|]. intros p q Op Oq. rewrite dist_sym. apply (hdual_away k q p Hk); [|exact Op]. now apply (hin_onPath i).
    + intros q O1 O2. apply (hno_common q). split; [now apply (hin_onPath i)|]. exists (vert dual k 0), (vert dual k 1). auto.
Qed.

(** ** The cut points *)
Lemma hook_ends : firstPos hook = H0' /\ lastPos hook = H3' /\ firstPos raw = mkV 0 1 /\ lastPos raw = mkV 4 (3 / 5).
Proof.
  split; [reflexivity|]. split; [reflexivity|]. unfold firstPos, lastPos. change (length (vertexes raw)) with (length vs). rewrite hvs_len. split; [apply (hin_at 0); lia|apply (hin_at 3); lia].
Qed.

Definition hcut q : Prop := q = mkV (16 / 5) 1 \/ q = mkV (24 / 5) 1.

Lemma hin_cut q : cutPointOpen hook 1 raw dual q -> hcut q.
Proof.
  destruct hook_ends as (F & G & F' & G'). intros (O & Hq & N1 & N2). rewrite F, G, F', G', (Rabs_right 1) in * by lra.
  destruct O as (v1 & v2 & H & O). destruct (hin_segs _ _ H) as (k & Hk & -> & ->). pose proof (hin_onPath k q Hk O) as Op. apply hin_on in O; [|auto]. destruct O as (t & Ht & Eq).
  destruct Hq as [Hq|[Hq|Hq]]; [now apply hin_double in Hq|now apply hno_common in Hq|]. unfold hcut. rewrite Eq in Hq, N1, N2 |- *. clear Op Eq H. destruct Hq as [Hq|Hq]; apply dist_sq in Hq; try lra; unfold lerp in *; three k Hk; cbn [hookRaw nth vx vy] in *; try (exfalso; nra).
  - exfalso. apply N1. assert (t * t = 0) by lra. assert (t = 0) by (apply Rsqr_0_uniq; auto). subst t. apply vec_eq; cbn [vx vy]; lra.
  - assert (E : (45 * t - 16) * (45 * t - 24) = 0) by lra. apply Rmult_integral in E. destruct E; [left|right]; apply vec_eq; cbn [vx vy]; lra.
  - exfalso. apply N2. assert (E : (t - 1) * (t - 1) = 0) by lra. assert (t = 1) by (apply Rmult_integral in E; destruct E; lra). subst t. apply vec_eq; cbn [vx vy]; lra.
Qed.

Lemma hcut_in q : hcut q -> cutPointOpen hook 1 raw dual q.
Proof.
  destruct hook_ends as (F & G & F' & G'). intros Hq. unfold cutPointOpen. rewrite F, G, F', G', (Rabs_right 1) by lra. split; [|split; [right; right; right; destruct Hq as [-> | ->]; apply dist_is; cbn [vx vy]; lra|]].
  - apply (hin_onPath 0); [lia|]. apply hin_on; [lia|]. destruct Hq as [-> | ->]; [exists (16 / 45)|exists (24 / 45)]; (split; [lra|]); cbn [hookRaw nth]; unfold lerp; apply vec_eq; cbn [vx vy]; lra.
  - destruct Hq as [-> | ->]; split; intros E; apply (f_equal vx) in E; cbn [vx] in E; lra.
Qed.

Lemma hin_spaced (X : vec -> Prop) : (forall q, X q -> hcut q) -> spaced raw X.
Proof.
  intros HX. split; [|split].
  - intros v1 v2 H. destruct (hin_segs _ _ H) as (k & Hk & -> & ->). rewrite (proj2 (hin_at k ltac:(lia))), (proj2 (hin_at (S k) ltac:(lia))). three k Hk; cbn [hookRaw nth]; farc.
  - intros v q H Hq. apply HX in Hq. apply (in_map pos) in H. cbn [raw vertexes] in H. rewrite Hpos in H. destruct Hq as [-> | ->]; destruct H as [<-|[<-|[<-|[<-|[]]]]]; farc.
  - intros v1 v2 q H _ _. destruct (hin_segs _ _ H) as (k & Hk & -> & ->). unfold longArc. pose proof (proj1 (hin_at k ltac:(lia))). repeat split; intros; contradiction.
Qed.

Lemma hin_position : openPosition hook 1 raw dual.
Proof.
  destruct hook_ends as (F & G & F' & G'). split.
  - cbn [raw vertexes]. rewrite hvs_len. lia.
  - apply List.Forall_forall. intros v Hv. apply Hline in Hv. unfold isLine in Hv. lra.
  - apply hin_exact.
  - apply hin_circle. auto.
  - apply hin_circle. auto.
  - rewrite G, G', (Rabs_right 1) by lra. apply dist_is; cbn [vx vy]; lra.
  - intros q [Hq|Hq]; [now apply hin_double in Hq|now apply hno_common in Hq].
  - rewrite F', G'. intros E. apply (f_equal vx) in E. cbn [vx] in E. lra.
  - cbn zeta. unfold longArc. intros N. exfalso. apply N. apply hin_at. change (length (vertexes raw)) with (length vs). rewrite hvs_len. lia.
  - apply hin_spaced, hin_cut.
  - cbn zeta. intros q q' Hq Hq' N. assert (K : forall z, cutPointOpen hook 1 raw dual z \/ z = firstPos raw \/ z = lastPos raw -> hcut z \/ z = mkV 0 1 \/ z = mkV 4 (3 / 5)) by (intros z; rewrite F', G'; intros [Hz|Hz]; [left; now apply hin_cut|auto]).
    apply K in Hq, Hq'. unfold hcut in Hq, Hq'. destruct Hq as [[-> | ->]|[-> | ->]]; destruct Hq' as [[-> | ->]|[-> | ->]]; try congruence; unfold wellApart; cbn [vx vy]; first [left; absc|right; absc].
  - split; [rewrite hdual_len; lia|]. split; [apply (oraw_small hook _ dual hook_out Ed)|]. split; [|apply hdual_exact]. split; [|split].
    + intros v1 v2 H. destruct (hdual_segs _ _ H) as (k & Hk & -> & ->). apply (oraw_far hook _ dual hook_out Ed). rewrite hdual_len. lia.
    + intros v q _ Hq. now apply hno_common in Hq.
    + intros v1 v2 q _ Hq. now apply hno_common in Hq.
Qed.

(** ** The judged points *)
Lemma hin_seg k t : (k < 3)%nat -> seg raw k t = lerp (nth k hookRaw (pos vdflt)) (nth (S k) hookRaw (pos vdflt)) t.
Proof.
  intros Hk. assert (H2 : (2 <= length (vertexes raw))%nat) by (cbn [raw vertexes]; rewrite hvs_len; lia). assert (Hl : (S k < length (vertexes raw))%nat) by (cbn [raw vertexes]; rewrite hvs_len; lia).
  destruct (seg_at_open raw H2 eq_refl k Hl) as (A & B & _). unfold seg. rewrite A, B. destruct (hin_at k ltac:(lia)) as [L E]. destruct (hin_at (S k) ltac:(lia)) as [_ E1]. rewrite segPath_line, E, E1 by auto. reflexivity.
Qed.

Lemma hcut_seg k t : (k < 3)%nat -> 0 <= t <= 1 -> hcut (seg raw k t) -> k = 0%nat /\ (t = 16 / 45 \/ t = 24 / 45).
Proof.
  intros Hk Ht H. rewrite hin_seg in H by auto. unfold hcut in H. destruct H as [H|H]; pose proof (f_equal vx H) as X; pose proof (f_equal vy H) as Y; clear H; three k Hk; cbn [hookRaw nth lerp vx vy] in X, Y; try (exfalso; lra); (split; [reflexivity|]); [left|right]; lra.
Qed.

Lemma hook_on p : onPath hook p -> exists t, 0 <= t <= 1 /\ (p = mkV (10 * t) 0 \/ p = mkV 10 (8 / 5 * t) \/ p = mkV (10 - 6 * t) (8 / 5)).
Proof.
  intros (v1 & v2 & H & O). assert (L : isLine v1) by (destruct H as [E|[E|[E|[]]]]; injection E as <- <-; apply hook_line; cbn; tauto).
  apply onSeg_path in O. destruct O as (t & Ht & ->). rewrite segPath_line by auto. exists t. split; [auto|].
  destruct H as [E|[E|[E|[]]]]; injection E as <- <-; unfold lerp; cbn [pos mkVertex vx vy]; [left|right; left|do 2 right]; apply vec_eq; cbn [vx vy]; rring.
Qed.

Lemma hook_has (t : R) : 0 <= t <= 1 -> onPath hook (mkV (10 * t) 0) /\ onPath hook (mkV (10 - 6 * t) (8 / 5)).
Proof.
  intros Ht. assert (G : forall v1 v2 q, In (v1, v2) (pathSegs hook) -> q = lerp (pos v1) (pos v2) t -> onPath hook q).
  { intros v1 v2 q H ->. exists v1, v2. split; [auto|]. apply onSeg_lerp; auto. destruct H as [E|[E|[E|[]]]]; injection E as <- <-; apply hook_line; cbn; tauto. }
  split; [apply (G (mkVertex 0 0 0) (mkVertex 10 0 0)); [now left|]|apply (G (mkVertex 10 (8 / 5) 0) (mkVertex 4 (8 / 5) 0)); [do 2 right; now left|]];
    unfold lerp; cbn [pos mkVertex vx vy]; apply vec_eq; cbn [vx vy]; rring.
Qed.

Lemma hin_decisive : decisiveOpen hook raw 1 (cutPointOpen hook 1 raw dual).
Proof.
  pose proof hin_position as HP. intros l (k & a & d & b & Hk & Rn & Cl & Xa & Xb). rewrite (Rabs_right 1) by lra.
  rewrite (lastMid_runO raw (cutPointOpen hook 1 raw dual) (oo_size _ _ _ _ HP) eq_refl (oo_arcs _ _ _ _ HP) (oo_spaced _ _ _ _ HP) k a d b l Hk Rn). change (length (vertexes raw)) with (length vs) in *. rewrite hvs_len in *. destruct Rn as (Ha & Hb & Rn).
  assert (Close : forall (x y : R), 9 / 10 <= y <= 1 /\ x = 4 \/ y = 3 / 5 /\ 0 <= x <= 10 -> exists q, onPath hook q /\ dist (mkV x y) q <= 1 - 2 / 10000).
  { intros x y [[Hy ->]|[-> Hx]].
    - exists (mkV (10 - 6 * 1) (8 / 5)). split; [apply hook_has; lra|]. rewrite (dist_is _ _ (8 / 5 - y)); cbn [vx vy]; lra.
    - exists (mkV (10 * (x / 10)) 0). split; [apply hook_has; lra|]. rewrite (dist_is _ _ (3 / 5)); cbn [vx vy]; lra. }
  destruct Xb as [Xb|[Ek ->]].
  - apply hin_cut, hcut_seg in Xb; [|lia|auto]. destruct Xb as [Ek Eb]. assert (k = 0%nat /\ d = 0%nat) by lia. destruct H as [-> ->]. cbn [runMid]. rewrite hin_seg by lia. destruct Rn as (_ & _ & _ & Hab & _).
    assert (Ea : a = 0 \/ a = 16 / 45 \/ a = 24 / 45). { destruct Xa as [Xa|[_ ->]]; [|auto]. apply hin_cut, hcut_seg in Xa; [|lia|auto]. tauto. }
    cbn [clearOf] in Cl. destruct Ea as [->|[->| ->]]; destruct Eb as [->| ->]; try lra.
    + left. intros p Hp. destruct (hook_on p Hp) as (t & Ht & [->|[->| ->]]); apply dist_coord; cbn [hookRaw nth lerp vx vy]; [right; rewrite Rabs_right; lra|left; rewrite Rabs_left; lra|left; rewrite Rabs_left; lra].
    + exfalso. apply (Cl (16 / 45)); [lra|]. apply hcut_in. rewrite hin_seg by lia. left. cbn [hookRaw nth]. unfold lerp. apply vec_eq; cbn [vx vy]; lra.
    + right. cbn [hookRaw nth]. unfold lerp. cbn [vx vy]. apply Close. lra.
  - assert (Ek2 : (k + d = 2)%nat) by lia. destruct d as [|d].
    + exfalso. assert (k = 2%nat) by lia. subst k. destruct Xa as [Xa|[E _]]; [|discriminate]. apply hin_cut, hcut_seg in Xa; [|lia|auto]. destruct Xa as [E _]. discriminate.
    + right. cbn [runMid]. rewrite Ek2, hin_seg by lia. cbn [hookRaw nth]. unfold lerp. cbn [vx vy]. apply Close. lra.
Qed.

Lemma hin_hits : noFalseHitsOpen hook raw 1.
Proof.
  intros k a b v w u1 u2 Hk Ha Hab Hb Hp Hbu Hf Hcl Hin. pose proof Hk as Hk0. cbn [raw vertexes] in Hk. rewrite hvs_len in Hk. rewrite (Rabs_right 1) in Hcl by lra.
  assert (H2 : (2 <= length (vertexes raw))%nat) by (cbn [raw vertexes]; rewrite hvs_len; lia). destruct (seg_at_open raw H2 eq_refl k Hk0) as (V0 & V1 & _).
  destruct (hin_at k ltac:(lia)) as [L E]. destruct (hin_at (S k) ltac:(lia)) as [_ E1].
  assert (Eu : isLine u1 /\ 8 / 5 <= dist (pos u1) (pos u2) <= 10 /\ ((pos u1 = H0' /\ pos u2 = H1') \/ (pos u1 = H1' /\ pos u2 = H2') \/ (pos u1 = H2' /\ pos u2 = H3'))).
  { split; [destruct Hin as [E2|[E2|[E2|[]]]]; injection E2 as <- <-; apply hook_line; cbn; tauto|].
    destruct Hin as [E2|[E2|[E2|[]]]]; injection E2 as <- <-; (split; [cbn [pos mkVertex]; hnums; lra|cbn [pos mkVertex]; tauto]). }
  destruct Eu as (Lu & Du & Eu).
  assert (Dr : 2 / 5 <= dist (pos (at_ raw k)) (pos (at_ raw (S k))) <= 9) by (rewrite E, E1; three k Hk; cbn [hookRaw nth]; [rewrite (dist_is _ _ 9)|rewrite (dist_is _ _ (2 / 5))|rewrite (dist_is _ _ 5)]; cbn [vx vy]; lra).
  apply (piece_none (vert raw k 0) (vert raw k 1) u1 u2 a b v w 1); auto.
  - now rewrite V0.
  - rewrite V0, V1. intros E2. rewrite E2, (dist_is (pos (at_ raw (S k))) _ 0) in Dr by (lra || ring). lra.
  - intros t q Ht Oq. apply Hcl; [auto|]. exists u1, u2. auto.
  - rewrite V0, V1. unfold clearPair. split; [unfold eps; lra|]. unfold eps. revert Dr. rewrite E, E1. revert Eu Hk. clear. intros Eu Hk. generalize (dist (nth k hookRaw (pos vdflt)) (nth (S k) hookRaw (pos vdflt))). intros D1 H1.
    destruct Eu as [[-> ->]|[[-> ->]|[-> ->]]]; three k Hk; cbn [hookRaw nth]; unfold cross; cbn [vx vy];
      first [left; absc|right; split; [lra|absc]].
Qed.
End Inside.

(** ** All hypotheses of C64 and C65 are met, with a kept stretch and dropped ones *)
Example C65_hook : exists raw dual, createRawOffsetPline hook 1 = Ok raw /\ createRawOffsetPline hook (- (1)) = Ok dual /\
  clearOpen hook 1 /\ clearOpen hook (- (1)) /\ indexable hook /\ 1 / 10000 <= Rabs 1 /\ (48 * Z.of_nat (length (vertexes hook)) * Z.of_nat (length (vertexes hook)) <= 2 ^ 24)%Z /\
  spread raw /\ openPosition hook 1 raw dual /\ decisiveOpen hook raw 1 (cutPointOpen hook 1 raw dual) /\ noFalseHitsOpen hook raw 1 /\
  (forall q, cutPointOpen hook 1 raw dual q <-> q = mkV (16 / 5) 1 \/ q = mkV (24 / 5) 1) /\ (exists q, onPath raw q /\ ~ clearBy hook (Rabs 1) q).
Proof.
  destruct hook_raw as (vs & Er & Hpos & Hline). destruct (open_raw_structure hook (- (1)) hook_out) as (ws & z & Ed & _). exists (mkPline false vs), (mkPline false (ws ++ [z])).
  split; [exact Er|]. split; [exact Ed|]. split; [apply hook_in|]. split; [apply hook_out|]. split; [split; [cbn; lia|split; [cbn; lia|left; cbn; lia]]|]. split; [rewrite Rabs_right; lra|]. split; [cbn; lia|].
  split; [left; rewrite segCount_eq; cbn [isClosed vertexes]; rewrite (hvs_len vs Hpos); lia|].
  split; [now apply hin_position|]. split; [now apply hin_decisive|]. split; [now apply hin_hits|]. split.
  - intros q. split; [now apply hin_cut|now apply hcut_in].
  - exists (mkV 4 1). split.
    + apply (hin_onPath vs Hpos 0); [lia|]. apply (hin_on vs Hpos Hline); [lia|]. exists (4 / 9). split; [lra|]. cbn [hookRaw nth]. unfold lerp. apply vec_eq; cbn [vx vy]; lra.
    + intros Cl. rewrite (Rabs_right 1) in Cl by lra. specialize (Cl _ (proj2 (hook_has 1 ltac:(lra)))). rewrite (dist_is _ _ (3 / 5)) in Cl; cbn [vx vy]; lra.
Qed.
