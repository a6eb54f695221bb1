(** * C57: what parallelOffset of a closed polyline returns, end to end *)
From Coq Require Import ZArith Reals Lra Lia List Bool Arith Permutation Sorted.
From Verif Require Import Base Num MathUtils PlineSegment SpatialIndex Polyline Intersects Combine Offset StdLaws RGeom Spec PropsMath ArcGeom Polar PropsSegment PropsClosest PropsIntr PropsPlineIntr PropsPolyline PropsWinding PropsRegion PropsPlineIndex PropsFindIntr PropsSelfIntr PropsCoincident PropsSlices PropsStitch PropsCombine PropsExtents PropsPieces PropsTrace PropsBoolOps PropsOffset PropsOffsetStitch PropsOffsetSlices PropsRawOffset PropsParallel PropsParallelTotal PropsOffsetRuns PropsOffsetCuts PropsCover PropsRunPoints PropsEuler PropsBalance PropsOffsetParts.
Import ListNotations.
Open Scope R_scope.

(** ** Specification *)
(** where the raw offset is cut: where it meets itself and, when the input may meet itself, where it meets the raw offset to the other side *)
Definition cutPoint (h : bool) (raw dual : polyline) (q : vec) : Prop := doublePoint raw q \/ (h = true /\ common raw dual q).

(** the raw offset meets itself (and the dual raw offset) in finitely many points, each away from the vertices and from each other, all of them found *)
Record offsetPosition (h : bool) (raw dual : polyline) : Prop := {
  op_size : (3 <= length (vertexes raw))%nat;
  op_arcs : smallBulges raw;
  op_self : exactSelf raw;
  op_spaced : spaced raw (cutPoint h raw dual);
  op_apart : forall q q', cutPoint h raw dual q -> cutPoint h raw dual q' -> q <> q' -> wellApart q q';
  op_dual : h = true -> (2 <= length (vertexes dual))%nat /\ smallBulges dual /\ spaced dual (common raw dual) /\
    forall a1 a2 b1 b2, In (a1, a2) (pathSegs raw) -> In (b1, b2) (pathSegs dual) -> exactPair a1 a2 b1 b2 }.

(** p keeps its distance from the polyline *)
Definition clearOfInput (pl : polyline) (d : R) (p : vec) : Prop := forall q, onPath pl q -> Rabs d - 2 / 10000 < dist p q.
(** p comes too close to a segment of the polyline, or lies next to the side of an arc's sector, where the library may misjudge *)
Definition tooClose (pl : polyline) (d : R) (p : vec) : Prop :=
  exists v1 v2, In (v1, v2) (pathSegs pl) /\ ((exists q, onSeg v1 v2 q /\ dist p q <= Rabs d - 1 / 10000) \/ nearSectorSide v1 v2 p).

(** the points of a stretch at which the distance is tested *)
Definition testedPoint (l : list vertex) (p : vec) : Prop := (exists v, In v l /\ p = pos v) \/ p = lastMid l.

(** a reason not to keep a stretch *)
Definition rejectable (pl : polyline) (d : R) (h : bool) (l : list vertex) : Prop :=
  (exists p, testedPoint l p /\ tooClose pl d p) \/
  (exists l1 a b l2 b' u1 u2, l = l1 ++ a :: b :: l2 /\ pos b' = pos b /\ In (u1, u2) (pathSegs pl) /\ intrPlineSegs a b' u1 u2 <> NoIntersect) \/
  (h = false /\ fuzzyEqual (pos (hd vdflt l)) (pos (last l vdflt)) (1 / 100000000) = true /\ getPathLength (mkPline false l) <= 1 / 100).

(** the raw offset was cut into [parts]; [rs] has exactly the segments of those parts that were kept; if at every point as many
    kept parts start as end, then [rs] are closed *)
Definition keptParts (pl : polyline) (d : R) (h : bool) (parts : list (list vertex)) (rs : list polyline) : Prop :=
  exists kept dropped, Permutation (kept ++ dropped) parts /\
    (forall l, In l kept -> forall p, testedPoint l p -> clearOfInput pl d p) /\ (forall l, In l dropped -> rejectable pl d h l) /\
    Permutation (flat_map trace rs) (flat_map traceOf kept) /\ ((forall x, netT (flat_map traceOf kept) x = 0) -> List.Forall closedPline rs).

Section Result.
Context {SL : StdLib} {SLaws : StdLaws SL}.

Lemma in_onSeg_path pl q : isClosed pl = true -> (2 <= length (vertexes pl))%nat -> onPath pl q -> exists k, (k < length (vertexes pl))%nat /\ onSeg (vert pl k 0) (vert pl k 1) q.
Proof.
  intros Hc H2 (v1 & v2 & Hin & O). pose proof (Permutation_in _ (Permutation_sym (vsegs_perm pl)) Hin) as Hvs. unfold vsegs in Hvs. apply in_map_iff in Hvs.
  destruct Hvs as ([i j] & Eij & Hij). cbn [fst snd] in Eij. injection Eij as <- <-. apply segs_iff in Hij. destruct Hij as (_ & Hi & ->). rewrite segCount_eq, Hc in Hi by auto.
  exists i. split; [auto|]. destruct (seg_at pl i Hc H2 Hi) as (-> & -> & _). exact O.
Qed.

(** the outcome, in terms of the tests the library performs *)
Definition outcome (ts : tests) (sc : bool) (raw : polyline) (X : vec -> Prop) (rs : list polyline) : Prop :=
  ((exists q, onPath raw q /\ X q) /\ exists parts, cutInto raw X parts /\ keptOf ts sc parts rs) \/
  ((forall q, ~ (onPath raw q /\ X q)) /\ ((valid ts (pos (at_ raw 0)) /\ rs = [mkPline true (vertexes raw)]) \/ (ptValid ts (pos (at_ raw 0)) = Ok false /\ rs = []))).

Lemma whole_result raw mi : (2 <= length (vertexes raw))%nat -> stitchOffsetSlicesTogether [wholeSlice raw true] true mi sliceJoinThreshold = Ok [mkPline true (vertexes raw)].
Proof.
  intros H2. destruct (vertexes raw) as [|v0 vs] eqn:Ev; [cbn in H2; lia|].
  assert (E0 : at_ raw 0 = v0) by (unfold at_; now rewrite Ev).
  assert (F : fuzzyEqual (pos v0) (pos (setBulge v0 0)) sliceJoinThreshold = true).
  { rewrite sjt_R. apply fuzzyEqual_R. cbn [setBulge pos]. rewrite !Rminus_diag_eq by reflexivity. rewrite Rabs_R0. lra. }
  rewrite (C38_single _ v0 (vs ++ [setBulge v0 0])); [|unfold wholeSlice; cbn [slPline vertexes]; rewrite Ev, E0; reflexivity|reflexivity].
  change (v0 :: vs ++ [setBulge v0 0]) with ((v0 :: vs) ++ [setBulge v0 0]). rewrite last_last, removelast_app by discriminate. cbn [removelast]. rewrite app_nil_r. cbn [andb]. rewrite F. reflexivity.
Qed.

Lemma slices_outcome pl raw offset : indexable pl -> indexable raw -> isClosed raw = true -> (3 <= length (vertexes raw))%nat -> smallBulges raw -> exactSelf raw ->
  spaced raw (doublePoint raw) -> (forall q q', doublePoint raw q -> doublePoint raw q' -> q <> q' -> wellApart q q') ->
  (Z.of_nat (4 * (length (vertexes raw) * length (vertexes raw)) + 4 * length (vertexes raw) + 1) <= 2 ^ 24)%Z ->
  exists ix sls rs, createApproxSpatialIndex pl = Ok ix /\ slicesFromRawOffset pl raw offset = Ok sls /\ stitchOffsetSlicesTogether sls true (length (vertexes raw) - 1) sliceJoinThreshold = Ok rs /\
    outcome (mkOrigTests pl offset ix) true raw (doublePoint raw) rs.
Proof.
  intros Hp Hr Hc H3 Hsm Hex Hsp Hap Hlen. destruct (slices_ok pl raw offset Hp (or_intror Hr)) as (ix & sls & Eix & Es & Ls & _). exists ix, sls.
  destruct (tests_ok pl offset Hp) as (ix' & Eix' & Hts). assert (ix' = ix) by congruence. subst ix'.
  destruct (self_exact raw (doublePoint raw) Hc H3 Hr Hsm Hex Hsp (fun q H => H)) as (rix & sis & Erix & Esis & Snd & Cpl).
  pose proof Es as Es0. unfold slicesFromRawOffset, size in Es. destruct (Nat.ltb_spec (length (vertexes raw)) 2); [lia|]. rewrite Eix, Erix in Es. cbn [bind] in Es.
  match type of Es with context [bind ?m _] => assert (E : m = Ok sis) by exact Esis; rewrite E in Es; clear E end. cbn [bind] in Es.
  set (ts := mkOrigTests pl offset ix) in *.
  destruct (Nat.eqb_spec (length sis) 0) as [E0|E0].
  - assert (No : forall q, ~ (onPath raw q /\ doublePoint raw q)).
    { intros q [Hq Dq]. destruct (in_onSeg_path raw q Hc ltac:(lia) Hq) as (k & Hk & O). pose proof (Cpl k q Hk O Dq) as Hin. destruct sis; [destruct Hin|cbn in E0; lia]. }
    rewrite at_get in Es by lia. cbn [bind] in Es. destruct (proj1 Hts (pos (at_ raw 0))) as (b & Eb). rewrite Eb in Es. cbn [bind] in Es. destruct b; cbn [negb] in Es.
    + unfold wholeRaw in Es. rewrite at_get in Es by lia. cbn [bind] in Es. assert (EW : sls = [wholeSlice raw true]) by (injection Es as <-; unfold wholeSlice; replace (0 / 1) with 0 by field; reflexivity). clear Es. subst sls.
      exists [mkPline true (vertexes raw)]. split; [auto|]. split; [auto|]. split; [apply (whole_result raw); lia|]. right. split; [exact No|]. left. split; [exact Eb|reflexivity].
    + injection Es as <-. exists []. split; [auto|]. split; [auto|]. split; [reflexivity|]. right. split; [exact No|]. right. auto.
  - assert (Hne : selfCuts sis <> []) by (destruct sis; [cbn in E0; lia|discriminate]).
    pose proof (self_rep sis [] [] rep_nil) as Rep. cbn [app] in Rep. match type of Rep with repV _ ?m0 => set (m := m0) in * end.
    assert (Craw : closedPline raw) by (split; [auto|lia]).
    destruct (sortV_table raw (selfCuts sis) m Rep) as (m' & Em & Tab & _).
    { intros k p H1. apply (Snd k p H1). }
    { intros k p q. apply (ps_inj raw (doublePoint raw) (selfCuts sis) Craw Hsm Hsp Snd). }
    assert (Es' : mfold (offsetSliceOne ts raw true true m') (map_order m') [] = Ok sls). { revert Es. fold m. rewrite Em. cbn [bind]. auto. }
    destruct (parts_result raw (doublePoint raw) (selfCuts sis) ts m' Craw Hsm Hsp Hap Hts Snd Cpl Hne Tab true (length (vertexes raw) - 1) sls (or_introl Es') ltac:(lia)) as (rs & Ers & K).
    exists rs. split; [auto|]. split; [auto|]. split; [auto|]. left. split.
    + destruct (selfCuts sis) as [|[k p] t] eqn:E; [contradiction|]. destruct (Snd k p (or_introl eq_refl)) as (Hk & O & Dp). exists p. split; [|auto]. destruct (seg_at raw k Hc ltac:(lia) Hk) as (_ & _ & I). exists (vert raw k 0), (vert raw k 1). auto.
    + eexists. split; [|exact K]. apply (all_cut raw (doublePoint raw) (selfCuts sis)); auto.
Qed.

Lemma dual_outcome pl raw dual offset : indexable pl -> isClosed pl = true -> indexable raw -> isClosed raw = true -> isClosed dual = true -> offsetPosition true raw dual ->
  (Z.of_nat (4 * (length (vertexes raw) * length (vertexes raw)) + 4 * (length (vertexes raw) * length (vertexes dual)) + 8 * length (vertexes raw) + 1) <= 2 ^ 24)%Z ->
  exists ix sls rs, createApproxSpatialIndex pl = Ok ix /\ dualSliceAtIntersectsForOffset pl raw dual offset = Ok sls /\ stitchOffsetSlicesTogether sls true (length (vertexes raw) - 1) sliceJoinThreshold = Ok rs /\
    outcome (mkOrigTests pl offset ix) false raw (cutPoint true raw dual) rs.
Proof.
  intros Hp Hcl Hr Hc Hcd [H3 Hsm Hex Hsp Hap Hd] Hlen. destruct (Hd eq_refl) as (D2 & Dsm & Dsp & Dex). clear Hd.
  destruct (dual_ok pl raw dual offset Hp) as (ix & sls & Eix & Es & Ls & _); [right; split; [auto|congruence]|]. exists ix, sls.
  destruct (tests_ok pl offset Hp) as (ix' & Eix' & Hts). assert (ix' = ix) by congruence. subst ix'. set (X := cutPoint true raw dual) in *.
  destruct (self_exact raw X Hc H3 Hr Hsm Hex Hsp (fun q H => or_introl H)) as (rix & sis & Erix & Esis & Snd1 & Cpl1).
  assert (GP : generalPosition raw dual).
  { split; auto.
    - destruct Hsp as (S1 & S2 & S3). split; [auto|]. split; [intros v q Hv Hq; apply S2; [auto|now right]|]. intros v1 v2 q Hin Hq O. destruct (S3 v1 v2 q Hin (or_intror (conj eq_refl Hq)) O) as (A & B & C).
      split; [auto|]. split; [auto|]. intros q' Hq'. apply C. now right.
    - intros q q' Hq Hq'. apply Hap; now right. }
  assert (Craw : closedPline raw) by (split; [auto|lia]).
  destruct (gp_intersects raw dual Craw (conj Hcd D2) Hr Hsm Dsm GP) as (rix' & di & Erix' & Efi & Di1 & Di2). assert (rix' = rix) by congruence. subst rix'.
  pose proof Es as Es0. unfold dualSliceAtIntersectsForOffset, size in Es. destruct (Nat.ltb_spec (length (vertexes raw)) 2); [lia|]. rewrite Eix, Erix, Hcl in Es. cbn [bind negb] in Es.
  match type of Es with context [bind ?m _] => assert (E : m = Ok sis) by exact Esis; rewrite E in Es; clear E end. cbn [bind] in Es.
  match type of Es with context [bind ?m _] => assert (E : m = Ok (di, [])) by exact Efi; rewrite E in Es; clear E end. cbn [bind fold_left] in Es.
  set (ts := mkOrigTests pl offset ix) in *.
  set (ps := selfCuts sis ++ otherCuts di).
  assert (Snd : forall k p, In (k, p) ps -> (k < length (vertexes raw))%nat /\ onSeg (vert raw k 0) (vert raw k 1) p /\ X p).
  { intros k p Hin. apply in_app_or in Hin. destruct Hin as [Hin|Hin].
    - destruct (Snd1 k p Hin) as (A & B & C). split; [auto|]. split; [auto|]. now left.
    - unfold otherCuts in Hin. apply in_map_iff in Hin. destruct Hin as (x & E & Hx). injection E as <- <-. destruct (Di1 x Hx) as (A & A' & B & C). split; [auto|]. split; [auto|]. right. split; [reflexivity|].
      destruct (seg_at raw _ Hc ltac:(lia) A) as (_ & _ & I1). destruct (seg_at dual _ Hcd D2 A') as (_ & _ & I2). split; [exists (vert raw (sIndex1 x) 0), (vert raw (sIndex1 x) 1)|exists (vert dual (sIndex2 x) 0), (vert dual (sIndex2 x) 1)]; auto. }
  assert (Cpl : forall k q, (k < length (vertexes raw))%nat -> onSeg (vert raw k 0) (vert raw k 1) q -> X q -> In (k, q) ps).
  { intros k q Hk O [Dq|(_ & _ & Dq)]; apply in_or_app; [left; now apply Cpl1|right]. destruct (in_onSeg_path dual q Hcd D2 Dq) as (j & Hj & Oj). unfold otherCuts. apply in_map_iff. exists (mkIntr k j q). split; [reflexivity|]. now apply Di2. }
  pose proof (otherS_rep di _ _ (selfS_rep sis [] [] (conj rep_nil (SSorted_nil _)))) as [Rep _]. cbn [app] in Rep. fold ps in Rep. match type of Rep with repV _ ?m0 => set (m := m0) in * end.
  assert (Es' : (if (length m =? 0)%nat then let! r0 := vget raw 0 in let! ok := ptValid ts (pos r0) in if negb ok then Ok [] else wholeRaw raw true
     else let! m := sortVLookup raw m in mfold (offsetSliceOne ts raw true false m) m []) = Ok sls) by exact Es.
  clear Es. rename Es' into Es.
  destruct (Nat.eqb_spec (length m) 0) as [E0|E0].
  - assert (Emp : ps = []).
    { destruct ps as [|[k p] t] eqn:E; [reflexivity|]. exfalso. destruct m; [|cbn in E0; lia]. destruct Rep as [_ Rep].
      apply (proj2 (Rep k (ptsAt ((k, p) :: t) k))). split; [reflexivity|]. unfold ptsAt. cbn [filter fst]. rewrite Nat.eqb_refl. discriminate. }
    assert (No : forall q, ~ (onPath raw q /\ X q)).
    { intros q [Hq Dq]. destruct (in_onSeg_path raw q Hc ltac:(lia) Hq) as (k & Hk & O). pose proof (Cpl k q Hk O Dq) as Hin. rewrite Emp in Hin. destruct Hin. }
    rewrite at_get in Es by lia. cbn [bind] in Es. destruct (proj1 Hts (pos (at_ raw 0))) as (b & Eb). rewrite Eb in Es. cbn [bind] in Es. destruct b; cbn [negb] in Es.
    + unfold wholeRaw in Es. rewrite at_get in Es by lia. cbn [bind] in Es. assert (EW : sls = [wholeSlice raw true]) by (injection Es as <-; unfold wholeSlice; replace (0 / 1) with 0 by field; reflexivity). clear Es. subst sls.
      exists [mkPline true (vertexes raw)]. split; [auto|]. split; [auto|]. split; [apply (whole_result raw); lia|]. right. split; [exact No|]. left. split; [exact Eb|reflexivity].
    + injection Es as <-. exists []. split; [auto|]. split; [auto|]. split; [reflexivity|]. right. split; [exact No|]. right. auto.
  - assert (Hne : ps <> []).
    { intros E. rewrite E in Rep. destruct Rep as [_ Rep]. destruct m as [|[k l] m0]; [cbn in E0; lia|]. destruct (proj1 (Rep k l) (or_introl eq_refl)) as [E1 E2]. apply E2. rewrite E1. reflexivity. }
    destruct (sortV_table raw ps m Rep) as (m' & Em & Tab & _).
    { intros k p H1. apply (Snd k p H1). }
    { intros k p q. apply (ps_inj raw X ps Craw Hsm Hsp Snd). }
    assert (Es' : mfold (offsetSliceOne ts raw true false m') m' [] = Ok sls). { revert Es. rewrite Em. cbn [bind]. auto. }
    destruct (parts_result raw X ps ts m' Craw Hsm Hsp Hap Hts Snd Cpl Hne Tab false (length (vertexes raw) - 1) sls (or_intror Es') ltac:(lia)) as (rs & Ers & K).
    exists rs. split; [auto|]. split; [auto|]. split; [auto|]. left. split.
    + clear - Hne Snd Hc H3. destruct ps as [|[k p] t]; [contradiction|]. destruct (Snd k p (or_introl eq_refl)) as (Hk & O & Dp). exists p. split; [|auto]. destruct (seg_at raw k Hc ltac:(lia) Hk) as (_ & _ & I). exists (vert raw k 0), (vert raw k 1). auto.
    + eexists. split; [|exact K]. apply (all_cut raw X ps); auto.
Qed.

(** ** From the tests to distances *)
Lemma part_bulges raw X l l1 a b l2 : (2 <= length (vertexes raw))%nat -> smallBulges raw -> part raw X l -> l = l1 ++ a :: b :: l2 -> Rabs (bulge a) <= 1.
Proof.
  intros H2 Hsm (k & a0 & d & b0 & _ & _ & (_ & _ & R) & _) E. assert (Ha : In a (removelast l)).
  { rewrite E. rewrite removelast_app by discriminate. apply in_or_app. right. cbn [removelast]. now left. }
  destruct d as [|d].
  - destruct R as (u & w & -> & _ & _ & B). destruct Ha as [<-|[]]. exact B.
  - destruct R as (w & us & e & -> & _ & _ & _ & B & _ & B' & _). rewrite app_assoc in Ha. change [us; e] with ([us] ++ [e]) in Ha. rewrite app_assoc, removelast_app in Ha by discriminate.
    cbn [removelast] in Ha. rewrite app_nil_r in Ha. apply in_app_or in Ha. destruct Ha as [Ha|[<-|[]]]; [|exact B']. cbn [app] in Ha. destruct Ha as [<-|Ha]; [exact B|].
    apply in_map_iff in Ha. destruct Ha as (j & <- & _). now apply vert_small.
Qed.

Section Distances.
Context (pl : polyline) (d : R) (ix : index).
Hypothesis (Hix : indexable pl) (Hok : okPath pl) (Hsm : smallBulges pl) (Hd : 1 / 10000 <= Rabs d) (Eix : createApproxSpatialIndex pl = Ok ix).
Let ts := mkOrigTests pl d ix.

Lemma valid_clear p : valid ts p -> clearOfInput pl d p.
Proof.
  intros V q Hq. destruct (C37_offset_distance pl p d Hix Hok Hsm Hd) as (ix' & b & Eix' & Eb & Hacc & _). assert (ix' = ix) by congruence. subst ix'.
  assert (b = true). { unfold valid, ts, mkOrigTests in V. cbn [ptValid] in V. assert (Ok b = Ok true) by (rewrite <- Eb; exact V). congruence. }
  destruct (Hacc H) as [H1 _]. specialize (H1 q Hq). lra.
Qed.

Lemma invalid_close p : ptValid ts p = Ok false -> tooClose pl d p.
Proof.
  intros V. destruct (C37_offset_distance pl p d Hix Hok Hsm Hd) as (ix' & b & Eix' & Eb & _ & Hrej). assert (ix' = ix) by congruence. subst ix'.
  assert (b = false). { unfold ts, mkOrigTests in V. cbn [ptValid] in V. assert (Ok b = Ok false) by (rewrite <- Eb; exact V). congruence. }
  destruct (Hrej H) as (v1 & v2 & Hin & Hdist & Hon). exists v1, v2. split; [auto|]. destruct Hon as [Hon|Hon]; [left|now right]. eexists. split; [exact Hon|lra].
Qed.

Lemma hits_crosses v w : Rabs (bulge v) <= 1 -> hitsOrig ts v w = Ok true -> exists u1 u2, In (u1, u2) (pathSegs pl) /\ intrPlineSegs v w u1 u2 <> NoIntersect.
Proof.
  intros Hb V. destruct (C49_crossing_test pl v w Hix Hsm Hb) as (ix' & b & Eix' & Eb & Ht & _). assert (ix' = ix) by congruence. subst ix'.
  apply Ht. unfold ts, mkOrigTests in V. cbn [hitsOrig] in V. assert (Ok b = Ok true) by (rewrite <- Eb; exact V). congruence.
Qed.

Lemma kept_parts (raw : polyline) X parts rs h : okTests ts -> (2 <= length (vertexes raw))%nat -> smallBulges raw -> cutInto raw X parts -> keptOf ts (negb h) parts rs -> keptParts pl d h parts rs.
Proof.
  intros Hts H2 Rsm [Hcut _] (kept & dropped & P & V & D & T). exists kept, dropped. split; [exact P|]. split; [|split; [|exact T]].
  - intros l Hl p [(v & Hv & ->)| ->]; destruct (V l Hl) as [V1 V2]; apply valid_clear; auto.
  - intros l Hl. assert (Hp : part raw X l) by (apply Hcut, (Permutation_in _ P), in_or_app; now right). specialize (D l Hl). clear V T Hl.
    apply Classical_Prop.NNPP. intros NR. apply D. unfold rejectable in NR.
    assert (Vd : forall p, testedPoint l p -> valid ts p).
    { intros p Hpt. destruct (proj1 Hts p) as ([|] & E); [exact E|]. exfalso. apply NR. left. exists p. split; [auto|]. now apply invalid_close. }
    split; [split|split].
    + intros v Hv. apply Vd. left. eauto.
    + apply Vd. now right.
    + intros l1 a b l2 b' E Eb. destruct (proj2 Hts a b') as ([|] & Eh); [|exact Eh]. exfalso. apply NR. right. left.
      destruct (hits_crosses a b' (part_bulges raw X l l1 a b l2 H2 Rsm Hp E) Eh) as (u1 & u2 & Hu & Hi). exists l1, a, b, l2, b', u1, u2. auto.
    + intros Hh F. apply negb_true_iff in Hh. subst h. destruct (Rlt_le_dec (1 / 100) (getPathLength (mkPline false l))) as [Hl|Hl]; [exact Hl|]. exfalso. apply NR. right. right. auto.
Qed.
End Distances.

(** ** C57 *)
(** Offsetting a closed polyline, when the raw offset is in general position. Either the raw offset has cut points: then it is cut there into stretches that
    cover it, and the results consist of exactly the segments of the stretches that were kept, each once, nothing else; every kept stretch keeps its distance
    at all tested points; every stretch that was dropped has a reason. Or there is nothing to cut: then the raw offset is the only result if its first vertex
    keeps its distance, and there is no result if it does not. *)
Theorem C57_offset_parts pl d h raw dual : isClosed pl = true -> indexable pl -> okPath pl -> smallBulges pl -> 1 / 10000 <= Rabs d ->
  (48 * Z.of_nat (length (vertexes pl)) * Z.of_nat (length (vertexes pl)) <= 2 ^ 24)%Z ->
  createRawOffsetPline pl d = Ok raw -> createRawOffsetPline pl (- d) = Ok dual -> spread raw -> offsetPosition h raw dual ->
  exists rs, parallelOffset pl d h = Ok rs /\
    (((exists q, onPath raw q /\ cutPoint h raw dual q) /\ exists parts, cutInto raw (cutPoint h raw dual) parts /\ keptParts pl d h parts rs) \/
     ((forall q, ~ (onPath raw q /\ cutPoint h raw dual q)) /\
      ((rs = [mkPline true (vertexes raw)] /\ clearOfInput pl d (pos (at_ raw 0))) \/ (rs = [] /\ tooClose pl d (pos (at_ raw 0)))))).
Proof.
  intros Hcl Hix Hok Hsm Hd Hn Er Ed Hspr OP.
  destruct (raw_ready pl d Hn) as (raw' & Er' & Lr & Hr). { intros r E. assert (r = raw) by congruence. now subst. }
  assert (raw' = raw) by congruence. subst raw'. clear Er'. pose proof (op_size _ _ _ OP) as H3. destruct Hr as [Hr|[Hr Hcr]]; [lia|]. rewrite Hcl in Hcr.
  destruct (raw_ok pl (- d)) as (dual' & Ed' & Cd & _ & Ld). assert (dual' = dual) by congruence. subst dual'. clear Ed'.
  assert (Hpn : (2 <= length (vertexes pl))%nat) by apply Hix.
  assert (Conv : forall ix rs, createApproxSpatialIndex pl = Ok ix -> outcome (mkOrigTests pl d ix) (negb h) raw (cutPoint h raw dual) rs ->
    ((exists q, onPath raw q /\ cutPoint h raw dual q) /\ exists parts, cutInto raw (cutPoint h raw dual) parts /\ keptParts pl d h parts rs) \/
     ((forall q, ~ (onPath raw q /\ cutPoint h raw dual q)) /\
      ((rs = [mkPline true (vertexes raw)] /\ clearOfInput pl d (pos (at_ raw 0))) \/ (rs = [] /\ tooClose pl d (pos (at_ raw 0)))))).
  { intros ix rs Eix [(Hex & parts & Hcut & Hk)|(Hno & Ho)].
    - left. split; [auto|]. exists parts. split; [auto|]. destruct (tests_ok pl d Hix) as (ix' & Eix' & Hts). assert (ix' = ix) by congruence. subst ix'.
      apply (kept_parts pl d ix Hix Hok Hsm Hd Eix raw (cutPoint h raw dual)); auto; [lia|apply OP].
    - right. split; [auto|]. destruct Ho as [[V ->]|[V ->]]; [left|right]; (split; [auto|]); [apply (valid_clear pl d ix)|apply (invalid_close pl d ix)]; auto. }
  unfold parallelOffset, size. destruct (Nat.ltb_spec (length (vertexes pl)) 2); [lia|]. rewrite Er, Hcl. cbn [bind andb]. destruct h; cbn [negb].
  - match goal with |- context [bind ?m _] => assert (E : m = Ok dual) by exact Ed; rewrite E; clear E end. cbn [bind].
    destruct (op_dual _ _ _ OP eq_refl) as (D2 & _). assert (Hcd : isClosed dual = true). { rewrite Cd; [auto|]. intros E. rewrite E in D2. cbn in D2. lia. }
    destruct (dual_outcome pl raw dual d Hix Hcl Hr Hcr Hcd OP) as (ix & sls & rs & Eix & Es & Est & O).
    { assert (4 * (length (vertexes raw) * length (vertexes raw)) + 4 * (length (vertexes raw) * length (vertexes dual)) + 8 * length (vertexes raw) + 1 <= 48 * (length (vertexes pl) * length (vertexes pl)))%nat by nia. lia. }
    rewrite Es. cbn [bind]. exists rs. split; [exact Est|]. apply (Conv ix); auto.
  - assert (Xeq : forall q, cutPoint false raw dual q <-> doublePoint raw q). { intros q. split; [intros [H1|[H1 _]]; [auto|discriminate]|now left]. }
    assert (Sp : spaced raw (doublePoint raw)).
    { destruct (op_spaced _ _ _ OP) as (S1 & S2 & S3). split; [auto|]. split; [intros v q Hv Hq; apply S2; [auto|now apply Xeq]|]. intros v1 v2 q Hin Hq O. destruct (S3 v1 v2 q Hin (proj2 (Xeq q) Hq) O) as (A & B & C).
      split; [auto|]. split; [auto|]. intros q' Hq'. apply C. now apply Xeq. }
    destruct (slices_outcome pl raw d Hix Hr Hcr H3 (op_arcs _ _ _ OP) (op_self _ _ _ OP) Sp) as (ix & sls & rs & Eix & Es & Est & O).
    { intros q q' Hq Hq'. apply (op_apart _ _ _ OP); now apply Xeq. }
    { assert (4 * (length (vertexes raw) * length (vertexes raw)) + 4 * length (vertexes raw) + 1 <= 48 * (length (vertexes pl) * length (vertexes pl)))%nat by nia. lia. }
    rewrite Es. cbn [bind]. exists rs. split; [exact Est|]. apply (Conv ix); auto. cbn [negb].
    destruct O as [((q & Hq & Dq) & parts & [C1 C2] & K)|(No & R)].
    + left. split; [exists q; split; [auto|now apply Xeq]|]. exists parts. split; [|exact K]. split; [|exact C2].
      intros l Hl. destruct (C1 l Hl) as (k & a & e & b & Hk & He & R & C & X1 & X2). exists k, a, e, b. split; [auto|]. split; [auto|]. split; [auto|]. split; [|split; now apply Xeq].
      assert (N : forall q, ~ doublePoint raw q -> ~ cutPoint false raw dual q) by (intros q0 H0 H1; now apply H0, Xeq). unfold clearOf in *. destruct e.
      * intros t Ht. apply N. auto.
      * destruct C as (A & B & C). split; [|split]; intros; apply N; auto.
    + right. split; [|exact R]. intros q0 [Hq0 Dq0]. apply (No q0). split; [auto|now apply Xeq].
Qed.

(** every point of a result is a point of the raw offset *)
Corollary C57_on_raw pl d h raw dual : isClosed pl = true -> indexable pl -> okPath pl -> smallBulges pl -> 1 / 10000 <= Rabs d ->
  (48 * Z.of_nat (length (vertexes pl)) * Z.of_nat (length (vertexes pl)) <= 2 ^ 24)%Z ->
  createRawOffsetPline pl d = Ok raw -> createRawOffsetPline pl (- d) = Ok dual -> spread raw -> offsetPosition h raw dual ->
  exists rs, parallelOffset pl d h = Ok rs /\ forall r q, In r rs -> onPath r q -> onPath raw q.
Proof.
  intros Hcl Hix Hok Hsm Hd Hn Er Ed Hspr OP. destruct (C57_offset_parts pl d h raw dual) as (rs & E & O); auto. exists rs. split; [exact E|].
  pose proof (op_size _ _ _ OP) as H3. assert (Hcr : isClosed raw = true). { destruct (raw_ok pl d) as (r & Er' & C & _). assert (r = raw) by congruence. subst r. rewrite C; [auto|]. intros E0. rewrite E0 in H3. cbn in H3. lia. }
  intros r q Hr Hq. destruct O as [(_ & parts & [Hcut _] & kept & dropped & P & _ & _ & T & _)|(_ & [[-> _]|[-> _]])].
  - apply onPath_trace in Hq. destruct Hq as (e & He & Oe).
    assert (Hin : In e (flat_map traceOf kept)). { apply (Permutation_in _ T). apply in_flat_map. eauto. }
    apply in_flat_map in Hin. destruct Hin as (l & Hl & Hel). assert (Hp : part raw (cutPoint h raw dual) l) by (apply Hcut, (Permutation_in _ P), in_or_app; now left).
    destruct Hp as (k & a & n & b & _ & _ & R & _). apply (run_on raw k a n b l q); [lia|auto|auto|]. apply onPath_trace. exists e. split; [|auto]. now rewrite trace_open.
  - destruct Hr as [<-|[]]. destruct raw as [c vs]. cbn [isClosed] in Hcr. subst c. exact Hq.
  - destruct Hr.
Qed.
End Result.
