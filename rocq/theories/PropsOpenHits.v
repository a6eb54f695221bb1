(** * The crossing test raises no false alarm on the raw offset of an open straight polyline *)
From Coq Require Import ZArith Reals Lra Lia List Bool Arith Permutation Sorted.
From Verif Require Import Base Num MathUtils PlineSegment SpatialIndex Polyline Intersects Combine Offset StdLaws RGeom Spec PropsMath ArcGeom Polar PropsSegment PropsClosest PropsIntr PropsPlineIntr PropsPolyline Turning PropsWinding PropsRegion PropsPlineIndex PropsExtents PropsCoincident PropsSlices PropsStitch PropsCombine PropsPieces PropsTrace PropsBoolOps PropsOffset PropsOffsetSlices PropsOffsetSegs PropsRawOffset PropsJoins PropsRawStructure PropsRawGeom PropsRawPoints PropsParallelTotal PropsOffsetRuns PropsOffsetCuts PropsCover PropsRunPoints PropsBalance PropsJordan PropsOffsetParts PropsOffsetResult PropsOffsetConst PropsOffsetExact PropsOffsetHits PropsOpenTrace PropsOpenRuns PropsOpenParts PropsOpenCuts PropsOpenResult PropsOpenRaw PropsOpenPoints PropsOpenConst PropsOpenExact.
Import ListNotations.
Open Scope R_scope.

Section NoHits.
Variables (pl : polyline) (d : R) (raw : polyline).
Hypothesis HC : clearOpen pl d.
Hypothesis Er : createRawOffsetPline pl d = Ok raw.

Lemma oraw_far k : (S k < length (vertexes raw))%nat -> far (pos (vert raw k 0)) (pos (vert raw k 1)).
Proof.
  intros Hk. destruct (otag_ends pl d raw HC Er k Hk) as [[-> _] ->]. pose proof (otag_ok pl d HC k) as Ok.
  destruct (otagAt pl d k) as [j|j|j] eqn:Et; cbn [okTag] in Ok; [now apply (co_off pl d HC)| |]; (apply (co_join pl d HC j Ok)).
  - pose proof (otag_next pl d raw HC Er k (otag_more pl d raw HC Er k j Hk (or_introl Et))) as Fo. rewrite Et in Fo. apply Fo.
  - pose proof (otag_next pl d raw HC Er k (otag_more pl d raw HC Er k j Hk (or_intror Et))) as Fo. rewrite Et in Fo. apply Fo.
Qed.

Lemma oraw_radius k : (S k < length (vertexes raw))%nat -> ~ isLine (vert raw k 0) -> okArc (vert raw k 0) (vert raw k 1) /\ radOf (vert raw k 0) (vert raw k 1) = Rabs d.
Proof.
  intros Hk Nl. pose proof (far_ne _ _ (oraw_far k Hk)) as Nf. pose proof (otag_ok pl d HC k) as Okt.
  destruct (otag_ends pl d raw HC Er k Hk) as [Hs He]. destruct (otagAt pl d k) as [j|j|j]; [destruct Hs; contradiction| |destruct Hs; contradiction].
  destruct Hs as [Hp (_ & th & Hr & Hth & _ & Hsw)]. cbn [startO endO okTag] in *.
  assert (Hb : Rabs (bulge (vert raw k 0)) <= 1).
  { assert (A : Rabs (atan (bulge (vert raw k 0))) < PI / 4). { unfold sweep in Hsw. replace (atan (bulge (vert raw k 0))) with (th / 4) by lra. unfold Rdiv at 1. rewrite Rabs_mult, (Rabs_right (/ 4)) by lra. lra. }
    rewrite <- (tan_atan (bulge (vert raw k 0))). apply Rabs_def2 in A. pose proof PI_RGT_0. apply Rabs_le. rewrite <- tan_PI4, <- tan_neg. split; left; apply tan_increasing; lra. }
  split; [split; [exact Nl|split; [exact Hb|exact Nf]]|].
  assert (Hc : arcCentre (pos (vert raw k 0)) (pos (vert raw k 1)) (bulge (vert raw k 0)) (pt pl (S j))) by (unfold arcCentre; rewrite Hp, He, Hsw; exact Hr).
  apply ctr_unique in Hc; [|now apply notLine_ne]. unfold radOf, ctrOf. rewrite <- Hc, Hp. unfold edgePt, len.
  pose proof (oP_ne pl d HC j ltac:(lia)) as Ne. rewrite <- (proj2 (offPt_ends d _ _ Ne)). unfold dist, shift. cbn [vx vy]. pose proof (nrm_unit _ _ Ne) as U.
  replace ((vx (pt pl (S j)) - (vx (pt pl (S j)) + d * nrmX (pt pl j) (pt pl (S j)))) ^ 2 + (vy (pt pl (S j)) - (vy (pt pl (S j)) + d * nrmY (pt pl j) (pt pl (S j)))) ^ 2) with (Rsqr d * (nrmX (pt pl j) (pt pl (S j)) * nrmX (pt pl j) (pt pl (S j)) + nrmY (pt pl j) (pt pl (S j)) * nrmY (pt pl j) (pt pl (S j)))) by (unfold Rsqr; ring).
  rewrite U, Rmult_1_r. apply sqrt_Rsqr_abs.
Qed.

Lemma vert_bulge k : (S k < length (vertexes raw))%nat -> Rabs (bulge (vert raw k 0)) <= 1.
Proof. intros Hk. destruct (Rlt_dec (Rabs (bulge (vert raw k 0))) (1 / 100000)) as [L|N]; [lra|]. apply (oraw_radius k Hk N). Qed.

Lemma oraw_small : smallBulges raw.
Proof.
  apply List.Forall_forall. intros v Hv. destruct (oraw_is pl d raw HC Er) as (vs & z & E & F & _ & Lz). destruct (In_nth _ _ vdflt Hv) as (k & Hk & <-). destruct (le_lt_dec (length (vertexes raw)) (S k)) as [L|L].
  - assert (Ev : nth k (vertexes raw) vdflt = z). { assert (length (vertexes raw) = S (length vs)) by (rewrite E; cbn [vertexes]; rewrite app_length; cbn [length]; lia). replace k with (length vs) by lia. rewrite E. cbn [vertexes]. apply nth_middle. }
    rewrite Ev. unfold isLine in Lz. lra.
  - pose proof (vert_bulge k L) as B. rewrite (proj1 (oat pl d raw HC Er k L)) in B. exact B.
Qed.

Theorem C65_no_false_hits : clearHits pl raw d -> noFalseHitsOpen pl raw d.
Proof.
  intros (Hd & He & Hc) k a b v w u1 u2 Hk Ha Hab Hb Hp Hbu Hf Hcl Hin. destruct (He u1 u2 Hin) as (Lu & E1 & E2).
  destruct (seg_at_open raw (oraw2 pl d raw HC Er) (oraw_open pl d raw HC Er) k Hk) as (_ & _ & _ & Hseg).
  assert (Hap : forall t q, a <= t <= b -> onSeg u1 u2 q -> Rabs d <= dist (segPath (vert raw k 0) (vert raw k 1) t) q).
  { intros t q Ht Oq. apply (Hcl t Ht). exists u1, u2. auto. }
  destruct (Rlt_dec (Rabs (bulge (vert raw k 0))) (1 / 100000)) as [Lk|Nk].
  - apply (piece_none (vert raw k 0) (vert raw k 1) u1 u2 a b v w (Rabs d)); auto. now apply far_ne, oraw_far.
  - destruct (oraw_radius k Hk Nk) as [Ok Hr]. destruct (piece_arc _ _ _ _ _ _ Ok Ha Hab Hb Hp Hbu (far_ne _ _ Hf)) as [Okv Hrv].
    apply (arc_none v w u1 u2 (Rabs d)); auto; [rewrite Hrv, Hr; auto|]. intros p q Op Oq. apply onSeg_path in Op. destruct Op as (s & Hs1 & ->). rewrite (Hp s). apply Hap; [|auto]. split; [assert (0 <= s * (b - a)) by (apply Rmult_le_pos; lra); lra|]. assert (s * (b - a) <= 1 * (b - a)) by (apply Rmult_le_compat_r; lra). lra.
Qed.
End NoHits.
