(** * C64: what parallelOffset of an open polyline returns, end to end *)
From Coq Require Import ZArith Reals Lra Lia List Bool Arith Permutation Sorted.
From Verif Require Import Base Num MathUtils PlineSegment SpatialIndex Polyline Intersects Combine Offset StdLaws RGeom Spec PropsMath ArcGeom Polar PropsSegment PropsClosest PropsIntr PropsPlineIntr PropsPolyline PropsWinding PropsRegion PropsPlineIndex PropsFindIntr PropsSelfIntr PropsCoincident PropsSlices PropsStitch PropsCombine PropsExtents PropsPieces PropsTrace PropsBoolOps PropsOffset PropsOffsetStitch PropsOffsetSlices PropsRawOffset PropsParallel PropsParallelTotal PropsEndCuts PropsOffsetRuns PropsOffsetCuts PropsCover PropsRunPoints PropsOffsetParts PropsOffsetResult PropsOpenTrace PropsOpenRuns PropsOpenParts PropsOpenCuts.
Import ListNotations.
Open Scope R_scope.

(** ** Specification *)
Definition firstPos (pl : polyline) : vec := pos (at_ pl 0).
Definition lastPos (pl : polyline) : vec := pos (at_ pl (length (vertexes pl) - 1)).

(** where the raw offset of an open polyline is cut: where it meets itself, or the raw offset to the other side, or one of the circles of the offset distance
    about the end points of the input *)
Definition cutPointOpen (pl : polyline) (d : R) (raw dual : polyline) (q : vec) : Prop :=
  onPath raw q /\ (openDouble raw q \/ common raw dual q \/ dist (firstPos pl) q = Rabs d \/ dist (lastPos pl) q = Rabs d) /\ q <> firstPos raw /\ q <> lastPos raw.

(** the raw offset meets itself, the dual raw offset and the end circles in finitely many points, each away from the vertices and from each other, all of them
    found; it ends on the circle about the end point of the input *)
Record openPosition (pl : polyline) (d : R) (raw dual : polyline) : Prop := {
  oo_size : (2 <= length (vertexes raw))%nat;
  oo_arcs : smallBulges raw;
  oo_self : exactOpen raw;
  oo_first : exactCircle raw (firstPos pl) (Rabs d);
  oo_last : exactCircle raw (lastPos pl) (Rabs d);
  oo_end : dist (lastPos pl) (lastPos raw) = Rabs d;
  oo_ends : forall q, openDouble raw q \/ common raw dual q -> q <> firstPos raw /\ q <> lastPos raw;
  oo_differ : firstPos raw <> lastPos raw;
  oo_long : let a := at_ raw (length (vertexes raw) - 2) in let b := at_ raw (length (vertexes raw) - 1) in longArc a b (pos a) (pos b);
  oo_spaced : spaced raw (cutPointOpen pl d raw dual);
  oo_apart : let Y := fun q => cutPointOpen pl d raw dual q \/ q = firstPos raw \/ q = lastPos raw in forall q q', Y q -> Y q' -> q <> q' -> wellApart q q';
  oo_dual : (2 <= length (vertexes dual))%nat /\ smallBulges dual /\ spaced dual (common raw dual) /\
    forall a1 a2 b1 b2, In (a1, a2) (pathSegs raw) -> In (b1, b2) (pathSegs dual) -> exactPair a1 a2 b1 b2 }.

(** the points of a stretch at which the distance is tested; of the stretch at the start of the raw offset all but the last but one vertex *)
Definition testedOpen (start : vec) (l : list vertex) (p : vec) : Prop :=
  (pos (hd vdflt l) <> start /\ testedPoint l p) \/
  (exists l1 a b, l = l1 ++ [a; b] /\ ((exists v, In v (l1 ++ [b]) /\ p = pos v) \/ p = segMidpoint a b)).

(** the raw offset was cut into [parts]; [rs] are open and have exactly the segments of those parts that were kept *)
Definition keptOpen (pl : polyline) (d : R) (start : vec) (parts : list (list vertex)) (rs : list polyline) : Prop :=
  exists kept dropped, Permutation (kept ++ dropped) parts /\
    (forall l, In l kept -> forall p, testedOpen start l p -> clearOfInput pl d p) /\ (forall l, In l dropped -> rejectable pl d true l) /\
    Permutation (flat_map trace rs) (flat_map traceOf kept) /\ (forall r, In r rs -> isClosed r = false).

(** ** Proofs *)
Lemma partO_bulges raw X l l1 a b l2 : (2 <= length (vertexes raw))%nat -> smallBulges raw -> partOpen raw X l -> l = l1 ++ a :: b :: l2 -> Rabs (bulge a) <= 1.
Proof.
  intros H2 Hsm (k & a0 & d & b0 & _ & (_ & _ & R) & _) E. assert (Ha : In a (removelast l)).
  { rewrite E. rewrite removelast_app by discriminate. apply in_or_app. right. cbn [removelast]. now left. }
  destruct d as [|d].
  - destruct R as (u & w & -> & _ & _ & B). destruct Ha as [<-|[]]. exact B.
  - destruct R as (w & us & e & -> & _ & _ & _ & B & _ & B' & _). rewrite app_assoc in Ha. change [us; e] with ([us] ++ [e]) in Ha. rewrite app_assoc, removelast_app in Ha by discriminate.
    cbn [removelast] in Ha. rewrite app_nil_r in Ha. apply in_app_or in Ha. destruct Ha as [Ha|[<-|[]]]; [|exact B']. cbn [app] in Ha. destruct Ha as [<-|Ha]; [exact B|].
    apply in_map_iff in Ha. destruct Ha as (j & <- & _). now apply vert_small.
Qed.

Section Result.
Context {SL : StdLib} {SLaws : StdLaws SL}.

Lemma kept_open pl d ix (raw : polyline) X parts rs start : indexable pl -> okPath pl -> smallBulges pl -> 1 / 10000 <= Rabs d -> createApproxSpatialIndex pl = Ok ix ->
  okTests (mkOrigTests pl d ix) -> (2 <= length (vertexes raw))%nat -> smallBulges raw -> cutOpen raw X parts -> keptOfOpen (mkOrigTests pl d ix) start parts rs -> keptOpen pl d start parts rs.
Proof.
  intros Hix Hok Hsm Hd Eix Hts H2 Rsm [Hcut _] (kept & dropped & P & V & D & T & Cl). set (ts := mkOrigTests pl d ix) in *. exists kept, dropped. split; [exact P|]. split; [|split; [|split; [exact T|exact Cl]]].
  - intros l Hl p Hp. apply (valid_clear pl d ix Hix Hok Hsm Hd Eix). fold ts.
    assert (VT : validated ts l -> testedPoint l p -> valid ts p). { intros [V1 V2] [(v & Hv & ->)| ->]; auto. }
    destruct (V l Hl) as [[Eh V1]|V1]; destruct Hp as [[Nh Ht]|(l1 & a & b & El & Ht)].
    + contradiction.
    + destruct (V1 l1 a b El) as (W1 & W2 & W3). destruct Ht as [(v & Hv & ->)| ->]; [|exact W3]. apply in_app_or in Hv. destruct Hv as [Hv|[<-|[]]]; auto.
    + now apply VT.
    + apply VT; [auto|]. subst l. destruct Ht as [(v & Hv & ->)| ->]; [left|right; now rewrite lastMid_snoc]. exists v. split; [|auto]. apply in_app_or in Hv. apply in_or_app. destruct Hv as [Hv|[<-|[]]]; [auto|right; right; now left].
  - intros l Hl. assert (Hp : partOpen raw X l) by (apply Hcut, (Permutation_in _ P), in_or_app; now right). specialize (D l Hl). clear V T Hl.
    apply Classical_Prop.NNPP. intros NR. apply D. unfold rejectable in NR.
    assert (Vd : forall p, testedPoint l p -> valid ts p).
    { intros p Hpt. destruct (proj1 Hts p) as ([|] & E); [exact E|]. exfalso. apply NR. left. exists p. split; [auto|]. now apply (invalid_close pl d ix Hix Hok Hsm Hd Eix). }
    split; [split|split].
    + intros v Hv. apply Vd. left. eauto.
    + apply Vd. now right.
    + intros l1 a b l2 b' E Eb. destruct (proj2 Hts a b') as ([|] & Eh); [|exact Eh]. exfalso. apply NR. right. left.
      destruct (hits_crosses pl d ix Hix Hsm Eix a b' (partO_bulges raw X l l1 a b l2 H2 Rsm Hp E) Eh) as (u1 & u2 & Hu & Hi). exists l1, a, b, l2, b', u1, u2. auto.
    + discriminate.
Qed.

(** slicing and stitching, in terms of the tests the library performs *)
Lemma open_outcome pl raw dual d : indexable pl -> isClosed pl = false -> indexable raw -> isClosed raw = false -> isClosed dual = false -> openPosition pl d raw dual ->
  (Z.of_nat (4 * (length (vertexes raw) * length (vertexes raw)) + 4 * (length (vertexes raw) * length (vertexes dual)) + 8 * length (vertexes raw) + 1) <= 2 ^ 24)%Z ->
  exists ix sls rs parts, createApproxSpatialIndex pl = Ok ix /\ dualSliceAtIntersectsForOffset pl raw dual d = Ok sls /\ stitchOffsetSlicesTogether sls false (length (vertexes raw) - 1) sliceJoinThreshold = Ok rs /\
    cutOpen raw (cutPointOpen pl d raw dual) parts /\ keptOfOpen (mkOrigTests pl d ix) (firstPos raw) parts rs.
Proof.
  intros Hp Hcl Hr Hc Hcd OP Hlen. pose proof OP as [H2 Hsm Hex Hx1 Hx2 Hend Hnot Hdiff Hlong Hsp Hap (D2 & Dsm & Dsp & Dex)].
  assert (Hpn : (2 <= length (vertexes pl))%nat) by apply Hp.
  destruct (dual_ok pl raw dual d Hp) as (ix & sls & Eix & Es & Ls & _); [right; split; [auto|congruence]|].
  destruct (tests_ok pl d Hp) as (ix' & Eix' & Hts). assert (ix' = ix) by congruence. subst ix'. set (X := cutPointOpen pl d raw dual) in *. set (n := length (vertexes raw)) in *.
  assert (On : forall k q, (S k < n)%nat -> onSeg (at_ raw k) (at_ raw (S k)) q -> onPath raw q).
  { intros k q Hk O. exists (at_ raw k), (at_ raw (S k)). split; [now apply open_in|auto]. }
  assert (XD : forall q, openDouble raw q -> X q).
  { intros q Dq. split; [|split; [now left|now apply Hnot; left]]. destruct Dq as (i & j & Hi & _ & _ & O & _). now apply (On i). }
  assert (XC : forall q, common raw dual q -> X q).
  { intros q Cq. split; [apply Cq|]. split; [auto|]. apply Hnot. now right. }
  destruct (self_open raw X Hc H2 Hr Hsm Hex Hsp XD) as (rix & sis & Erix & Esis & Snd1 & Cpl1).
  assert (SpC : spaced raw (common raw dual)).
  { destruct Hsp as (S1 & S2 & S3). split; [auto|]. split; [intros v q Hv Hq; apply S2; auto|]. intros v1 v2 q Hin Hq O. destruct (S3 v1 v2 q Hin (XC q Hq) O) as (A & B & C).
    split; [auto|]. split; [auto|]. intros q' Hq'. apply C. auto. }
  destruct (cross_open raw dual Hc Hcd Hr D2 Hsm Dsm Dex SpC Dsp) as (rix' & di & Erix' & Efi & Di1 & Di2). assert (rix' = rix) by congruence. subst rix'.
  destruct (circle_open raw X d (firstPos pl) Hc Hr Hsm Hsp Hx1) as (rix' & Erix2 & Circ1). assert (rix' = rix) by congruence. subst rix'.
  destruct (circle_open raw X d (lastPos pl) Hc Hr Hsm Hsp Hx2) as (rix' & Erix3 & Circ2). assert (rix' = rix) by congruence. subst rix'.
  destruct (Circ1 []) as (c1 & Ec1 & Hc1). cbn [app] in Ec1. destruct (Circ2 c1) as (c2 & Ec2 & Hc2). clear Circ1 Circ2.
  pose proof Es as Es0. unfold dualSliceAtIntersectsForOffset, size in Es. fold n in Es. destruct (Nat.ltb_spec n 2); [lia|]. rewrite Eix, Erix, Hcl in Es. cbn [bind negb] in Es.
  match type of Es with context [bind ?m _] => assert (E : m = Ok sis) by exact Esis; rewrite E in Es; clear E end. cbn [bind] in Es.
  match type of Es with context [bind ?m _] => assert (E : m = Ok (di, [])) by exact Efi; rewrite E in Es; clear E end. cbn [bind fold_left] in Es.
  rewrite at_get, last_at in Es by lia. cbn [bind] in Es.
  match type of Es with context [bind ?m _] => assert (E : m = Ok (c1 ++ c2)); [|rewrite E in Es; clear E] end.
  { match goal with |- context [bind ?m _] => assert (E : m = Ok c1) by exact Ec1; rewrite E; clear E end. cbn [bind]. exact Ec2. }
  cbn [bind] in Es. set (ts := mkOrigTests pl d ix) in *.
  set (ps := ((c1 ++ c2) ++ selfCuts sis) ++ otherCuts di).
  pose proof (otherS_rep di _ _ (selfS_rep sis _ _ (circS_rep (c1 ++ c2) [] [] (conj rep_nil (SSorted_nil _))))) as [Rep Srt]. cbn [app] in Rep, Srt. fold ps in Rep. match type of Rep with repV _ ?m0 => set (m := m0) in * end.
  assert (V : forall k, (S k < n)%nat -> vert raw k 0 = at_ raw k /\ vert raw k 1 = at_ raw (S k)).
  { intros k Hk. destruct (seg_at_open raw H2 Hc k Hk) as (A & B & _). auto. }
  assert (EL : lastPos raw = pos (vert raw (n - 2) 1)). { unfold lastPos. f_equal. destruct (V (n - 2)%nat ltac:(lia)) as [_ ->]. f_equal. fold n. lia. }
  assert (CX : forall k p, (S k < n)%nat -> onSeg (at_ raw k) (at_ raw (S k)) p -> p <> pos (at_ raw k) -> dist (firstPos pl) p = Rabs d \/ dist (lastPos pl) p = Rabs d -> X p \/ (S (S k) = n /\ p = pos (vert raw k 1))).
  { intros k p Hk O Np Dp.
    destruct (Classical_Prop.classic (openDouble raw p)) as [Dq|ND]; [left; now apply XD|].
    destruct (Classical_Prop.classic (p = firstPos raw)) as [E1|N1].
    { destruct k as [|k]; [contradiction|]. exfalso. apply ND. exists 0%nat, (S k). split; [fold n; lia|]. split; [fold n; lia|]. split; [lia|]. split; [rewrite E1; apply onSeg_path; exists 0; split; [lra|now rewrite segPath_0]|]. split; [auto|].
      intros [[Ek Ep]|[Ek _]]; [|lia]. contradiction. }
    destruct (Classical_Prop.classic (p = lastPos raw)) as [E2|N2].
    { destruct (Nat.eq_dec (S (S k)) n) as [Ek|Nk]; [right; split; [auto|]; rewrite E2, EL; f_equal; f_equal; lia|]. exfalso. apply ND. exists k, (n - 2)%nat. split; [auto|]. split; [fold n; lia|]. split; [lia|]. split; [auto|].
      split. { rewrite E2. apply onSeg_path. exists 1. split; [lra|]. rewrite segPath_1. unfold lastPos. fold n. replace (S (n - 2)) with (n - 1)%nat by lia. reflexivity. }
      intros [[Ek Ep]|[Ek _]]; [|lia]. rewrite E2, EL in Ep. destruct (V (n - 2)%nat ltac:(lia)) as [V0 _]. rewrite <- V0 in Ep.
      apply (far_ne (pos (vert raw (n - 2) 0)) (pos (vert raw (n - 2) 1))); [|auto]. apply (proj1 Hsp). apply (seg_at_open raw H2 Hc (n - 2)). fold n. lia. }
    left. split; [now apply (On k)|]. split; [tauto|]. auto. }
  assert (Snd : forall k p, In (k, p) ps -> (S k < n)%nat /\ onSeg (vert raw k 0) (vert raw k 1) p /\ (X p \/ (S (S k) = n /\ p = pos (vert raw k 1)))).
  { intros k p Hin. assert (G : (S k < n)%nat /\ onSeg (at_ raw k) (at_ raw (S k)) p /\ (X p \/ (S (S k) = n /\ p = pos (vert raw k 1)))).
    2: { destruct G as (G1 & G2 & G3). split; [auto|]. split; [|auto]. destruct (V k G1) as [-> ->]. exact G2. }
    unfold ps in Hin. rewrite !in_app_iff in Hin. destruct Hin as [[[Hin|Hin]|Hin]|Hin].
    - apply Hc1 in Hin. destruct Hin as (A & B & C & D). split; [auto|]. split; [auto|]. apply CX; auto.
    - apply Hc2 in Hin. destruct Hin as (A & B & C & D). split; [auto|]. split; [auto|]. apply CX; auto.
    - destruct (Snd1 k p Hin) as (A & B & C). split; [auto|]. split; [auto|]. left. auto.
    - unfold otherCuts in Hin. apply in_map_iff in Hin. destruct Hin as (x & E & Hx). injection E as <- <-. destruct (Di1 x Hx) as (A & A' & B & C). split; [auto|]. split; [auto|]. left. apply XC. split; [now apply (On (sIndex1 x))|].
      exists (at_ dual (sIndex2 x)), (at_ dual (S (sIndex2 x))). split; [now apply open_in|auto]. }
  assert (Far : forall q k, X q -> (k < n)%nat -> q <> pos (at_ raw k)).
  { intros q k Hq Hk. apply far_ne. apply (proj1 (proj2 Hsp)); [unfold at_; now apply nth_In|auto]. }
  assert (Cpl : forall k q, (S k < n)%nat -> onSeg (vert raw k 0) (vert raw k 1) q -> X q -> In (k, q) ps).
  { intros k q Hk O Xq. destruct (V k Hk) as [V0 V1]. rewrite V0, V1 in O. pose proof Xq as (_ & Hq & _). unfold ps. rewrite !in_app_iff. destruct Hq as [Dq|[(_ & Cq)|[Dq|Dq]]].
    - left. right. now apply Cpl1.
    - right. apply (on_open dual D2 Hcd) in Cq. destruct Cq as (j & t & Hj & Ht & ->). destruct (seg_at_open dual D2 Hcd j Hj) as (W0 & W1 & _). unfold otherCuts. apply in_map_iff. exists (mkIntr k j (seg dual j t)). split; [reflexivity|]. apply Di2; auto.
      apply onSeg_path. exists t. split; [auto|]. unfold seg. now rewrite W0, W1.
    - left. left. left. apply Hc1. split; [auto|]. split; [auto|]. split; [auto|]. apply Far; [auto|lia].
    - left. left. right. apply Hc2. split; [auto|]. split; [auto|]. split; [auto|]. apply Far; [auto|lia]. }
  assert (Hlast : In ((n - 2)%nat, pos (vert raw (n - 2) 1)) ps).
  { unfold ps. rewrite !in_app_iff. left. left. right. apply Hc2. rewrite <- EL. destruct (V (n - 2)%nat ltac:(lia)) as [V0 V1]. split; [fold n; lia|]. split; [|split; [exact Hend|]].
    - rewrite EL, V1. apply onSeg_path. exists 1. split; [lra|]. now rewrite segPath_1.
    - rewrite EL, <- V0. intros E. apply (far_ne (pos (vert raw (n - 2) 0)) (pos (vert raw (n - 2) 1))); [|auto]. apply (proj1 Hsp). apply (seg_at_open raw H2 Hc (n - 2)). fold n. lia. }
  assert (Hlong' : longArc (vert raw (n - 2) 0) (vert raw (n - 2) 1) (pos (vert raw (n - 2) 0)) (pos (vert raw (n - 2) 1))).
  { destruct (V (n - 2)%nat ltac:(lia)) as [-> ->]. replace (S (n - 2)) with (n - 1)%nat by lia. exact Hlong. }
  assert (Hap' : forall q q', orEnd raw X q -> orEnd raw X q' -> q <> q' -> wellApart q q') by exact Hap.
  destruct (sortV_table raw ps m Rep) as (m' & Em & Tab & _).
  { intros k p H1. apply Snd in H1. fold n. lia. }
  { intros k p q. apply (o_inj raw X ps H2 Hc Hsm Hsp Snd). }
  match type of Es with (if ?c then _ else _) = _ => assert (c = false) as E0 end.
  { apply Nat.eqb_neq. change (length m <> 0%nat). intros E. destruct m; [|discriminate]. destruct Rep as [_ Rep]. destruct (proj2 (Rep (n - 2)%nat (ptsAt ps (n - 2)))); split; [reflexivity|]. intros E1. apply (ptsAt_In ps) in Hlast. rewrite E1 in Hlast. destruct Hlast. }
  rewrite E0 in Es. clear E0.
  assert (Es' : (let! first := firstSliceLoop (S n) ts raw m' emptyPline 0 in mfold (offsetSliceOne ts raw false false m') m' first) = Ok sls).
  { revert Es. fold m. rewrite Em. cbn [bind]. auto. }
  destruct (o_result raw X ps ts m' H2 Hc Hsm Hsp Hap' Hts Hdiff Hlong' Snd Cpl Hlast Tab (n - 1) sls Es' ltac:(lia)) as (rs & Ers & K).
  exists ix, sls, rs, (openParts raw (withAt ps)). split; [auto|]. split; [auto|]. split; [auto|]. split; [|exact K].
  apply (o_cutopen raw X ps H2 Hc Hsm Hsp Hap' Hlong' Snd Cpl Hlast).
Qed.

(** ** C64 *)
(** Offsetting an open polyline, when the raw offset is in general position: the raw offset is cut into stretches that cover it, at exactly the points where it
    meets itself, the raw offset to the other side, or one of the end circles; the results are open and consist of exactly the segments of the stretches that
    were kept, each once, nothing else; every kept stretch keeps its distance at all tested points; every stretch that was dropped has a reason. *)
Theorem C64_open_offset pl d h raw dual : isClosed pl = false -> indexable pl -> okPath pl -> smallBulges pl -> 1 / 10000 <= Rabs d ->
  (48 * Z.of_nat (length (vertexes pl)) * Z.of_nat (length (vertexes pl)) <= 2 ^ 24)%Z ->
  createRawOffsetPline pl d = Ok raw -> createRawOffsetPline pl (- d) = Ok dual -> spread raw -> openPosition pl d raw dual ->
  exists rs parts, parallelOffset pl d h = Ok rs /\ cutOpen raw (cutPointOpen pl d raw dual) parts /\ keptOpen pl d (firstPos raw) parts rs.
Proof.
  intros Hcl Hix Hok Hsm Hd Hn Er Ed Hspr OP.
  destruct (raw_ready pl d Hn) as (raw' & Er' & Lr & Hr). { intros r E. assert (r = raw) by congruence. now subst. }
  assert (raw' = raw) by congruence. subst raw'. clear Er'. pose proof (oo_size _ _ _ _ OP) as H2. destruct Hr as [Hr|[Hr Hcr]]; [lia|]. rewrite Hcl in Hcr.
  destruct (raw_ok pl (- d)) as (dual' & Ed' & Cd & _ & Ld). assert (dual' = dual) by congruence. subst dual'. clear Ed'.
  assert (Hpn : (2 <= length (vertexes pl))%nat) by apply Hix. destruct (oo_dual _ _ _ _ OP) as (D2 & _).
  assert (Hcd : isClosed dual = false). { rewrite Cd; [auto|]. intros E. rewrite E in D2. cbn in D2. lia. }
  destruct (open_outcome pl raw dual d Hix Hcl Hr Hcr Hcd OP) as (ix & sls & rs & parts & Eix & Es & Est & Hcut & K).
  { assert (4 * (length (vertexes raw) * length (vertexes raw)) + 4 * (length (vertexes raw) * length (vertexes dual)) + 8 * length (vertexes raw) + 1 <= 48 * (length (vertexes pl) * length (vertexes pl)))%nat by nia. lia. }
  exists rs, parts. split; [|split; [exact Hcut|]].
  - unfold parallelOffset, size. destruct (Nat.ltb_spec (length (vertexes pl)) 2); [lia|]. rewrite Er, Hcl. cbn [bind andb].
    match goal with |- context [bind ?m _] => assert (E : m = Ok dual) by exact Ed; rewrite E; clear E end. cbn [bind]. rewrite Es. cbn [bind]. exact Est.
  - destruct (tests_ok pl d Hix) as (ix' & Eix' & Hts). assert (ix' = ix) by congruence. subst ix'.
    apply (kept_open pl d ix raw (cutPointOpen pl d raw dual)); auto. apply OP.
Qed.

(** every point of a result is a point of the raw offset *)
Corollary C64_on_raw pl d h raw dual : isClosed pl = false -> indexable pl -> okPath pl -> smallBulges pl -> 1 / 10000 <= Rabs d ->
  (48 * Z.of_nat (length (vertexes pl)) * Z.of_nat (length (vertexes pl)) <= 2 ^ 24)%Z ->
  createRawOffsetPline pl d = Ok raw -> createRawOffsetPline pl (- d) = Ok dual -> spread raw -> openPosition pl d raw dual ->
  exists rs, parallelOffset pl d h = Ok rs /\ forall r q, In r rs -> onPath r q -> onPath raw q.
Proof.
  intros Hcl Hix Hok Hsm Hd Hn Er Ed Hspr OP. destruct (C64_open_offset pl d h raw dual) as (rs & parts & E & [Hcut _] & kept & dropped & P & _ & _ & T & _); auto. exists rs. split; [exact E|].
  pose proof (oo_size _ _ _ _ OP) as H2. assert (Hcr : isClosed raw = false). { destruct (raw_ok pl d) as (r & Er' & C & _). assert (r = raw) by congruence. subst r. rewrite C; [auto|]. intros E0. rewrite E0 in H2. cbn in H2. lia. }
  intros r q Hr Hq. apply onPath_trace in Hq. destruct Hq as (e & He & Oe).
  assert (Hin : In e (flat_map traceOf kept)). { apply (Permutation_in _ T). apply in_flat_map. eauto. }
  apply in_flat_map in Hin. destruct Hin as (l & Hl & Hel). assert (Hp : partOpen raw (cutPointOpen pl d raw dual) l) by (apply Hcut, (Permutation_in _ P), in_or_app; now left).
  destruct Hp as (k & a & n & b & Hkn & R & _).
  assert (O : onPath (mkPline false l) q) by (apply onPath_trace; exists e; split; [now rewrite trace_open|auto]).
  apply (run_onRun _ _ _ _ _ _ _ H2 R) in O. destruct R as (Ha & Hb & _). apply (on_open raw H2 Hcr). destruct n; cbn [onRun] in O.
  - destruct O as (t & Ht & ->). exists k, t. split; [lia|]. split; [lra|reflexivity].
  - destruct O as [(t & Ht & ->)|[(e' & t & He' & Ht & ->)|(t & Ht & ->)]]; do 2 eexists; (split; [|split; [|reflexivity]]); try lia; lra.
Qed.
End Result.
