(** * C64: the result of offsetting an open polyline consists of the kept stretches of the raw offset *)
From Coq Require Import ZArith Reals Lra Lia List Bool Arith Permutation Sorted.
From Verif Require Import Base Num MathUtils PlineSegment SpatialIndex Polyline Intersects Combine Offset StdLaws RGeom Spec PropsMath ArcGeom Polar PropsSegment PropsClosest PropsIntr PropsPlineIntr PropsPolyline PropsWinding PropsRegion PropsPlineIndex PropsFindIntr PropsSelfIntr PropsCoincident PropsSlices PropsStitch PropsCombine PropsPieces PropsTrace PropsBoolOps PropsOffsetStitch PropsOffsetSlices PropsParallel PropsParallelTotal PropsOffsetRuns PropsOffsetCuts PropsCover PropsRunPoints PropsOffsetParts PropsOpenTrace PropsOpenRuns.
Import ListNotations.
Open Scope R_scope.

(** a kept stretch was tested: the one at the start of the polyline everywhere but at its last but one vertex, the others everywhere *)
Definition keptTest (ts : tests) (start : vec) (l : list vertex) : Prop := (pos (hd vdflt l) = start /\ validatedFirst ts l) \/ validated ts l.

Definition keptOfOpen (ts : tests) (start : vec) (parts : list (list vertex)) (rs : list polyline) : Prop :=
  exists kept dropped, Permutation (kept ++ dropped) parts /\ (forall l, In l kept -> keptTest ts start l) /\ (forall l, In l dropped -> ~ passes ts false l) /\
    Permutation (flat_map trace rs) (flat_map traceOf kept) /\ (forall r, In r rs -> isClosed r = false).

Section Parts.
Context {SL : StdLib} {SLaws : StdLaws SL}.
Context (raw : polyline) (X : vec -> Prop) (ps : list (nat * vec)) (ts : tests) (m : vlookup).
Let n := length (vertexes raw).
Let cs := withAt ps.
(** the points of [X] and the two ends *)
Definition orEnd (q : vec) : Prop := X q \/ q = pos (at_ raw 0) \/ q = pos (at_ raw (n - 1)).
Hypothesis (Hn : (2 <= n)%nat) (Hop : isClosed raw = false) (Hsm : smallBulges raw) (Hsp : spaced raw X) (Hap : forall q q', orEnd q -> orEnd q' -> q <> q' -> wellApart q q') (Hts : okTests ts).
Hypothesis (Hends : pos (at_ raw 0) <> pos (at_ raw (n - 1))) (Hlong : longArc (vert raw (n - 2) 0) (vert raw (n - 2) 1) (pos (vert raw (n - 2) 0)) (pos (vert raw (n - 2) 1))).
Hypothesis Hsnd : forall k p, In (k, p) ps -> (S k < n)%nat /\ onSeg (vert raw k 0) (vert raw k 1) p /\ (X p \/ (S (S k) = n /\ p = pos (vert raw k 1))).
Hypothesis Hcpl : forall k q, (S k < n)%nat -> onSeg (vert raw k 0) (vert raw k 1) q -> X q -> In (k, q) ps.
Hypothesis Hlast : In ((n - 2)%nat, pos (vert raw (n - 2) 1)) ps.

Lemma o_seg k : (S k < n)%nat -> vert raw k 0 = at_ raw k /\ vert raw k 1 = at_ raw (S k) /\ nextI raw k = S k /\ In (vert raw k 0, vert raw k 1) (pathSegs raw).
Proof. intros Hk. apply (seg_at_open raw Hn Hop k Hk). Qed.

Lemma o_vin k : (k < n)%nat -> In (at_ raw k) (vertexes raw).
Proof. intros Hk. unfold at_. now apply nth_In. Qed.

Lemma o_far k : (S k < n)%nat -> far (pos (vert raw k 0)) (pos (vert raw k 1)).
Proof. intros Hk. apply (proj1 Hsp). apply (o_seg k Hk). Qed.

Lemma apart_far' x y : wellApart x y -> far x y.
Proof. apply apart_far. Qed.

Lemma o_cut k c : In (k, c) cs -> (S k < n)%nat /\ spStart c = false /\
  exists t, 0 <= t <= 1 /\ spPos c = seg raw k t /\ far (pos (vert raw k 0)) (spPos c) /\ longArc (vert raw k 0) (vert raw k 1) (pos (vert raw k 0)) (spPos c) /\
    ((S (S k) = n /\ t = 1) \/ (X (spPos c) /\ far (spPos c) (pos (vert raw k 1)) /\ longArc (vert raw k 0) (vert raw k 1) (spPos c) (pos (vert raw k 1)))).
Proof.
  intros H. apply withAt_In in H. destruct H as (p & -> & H). destruct (Hsnd k p H) as (Hk & O & D). split; [auto|]. split; [reflexivity|]. cbn [atP spPos].
  destruct (o_seg k Hk) as (E0 & E1 & _ & Hin). destruct D as [Xp|[Ek Ep]].
  - pose proof O as O'. apply onSeg_path in O'. destruct O' as (t & Ht & Et). exists t. split; [auto|]. split; [exact Et|]. destruct Hsp as (_ & S2 & S3). destruct (S3 _ _ p Hin Xp O) as (L1 & L2 & _).
    split; [rewrite E0; apply far_sym, S2; [apply o_vin; lia|auto]|]. split; [auto|]. right. split; [auto|]. split; [rewrite E1; apply S2; [apply o_vin; lia|auto]|auto].
  - exists 1. split; [lra|]. split; [unfold seg; rewrite segPath_1; exact Ep|]. rewrite Ep. split; [now apply o_far|]. split; [|left; auto]. replace k with (n - 2)%nat by lia. exact Hlong.
Qed.

Lemma o_pair k c c' : In (k, c) cs -> In (k, c') cs -> spPos c = spPos c' \/ (far (spPos c) (spPos c') /\ longArc (vert raw k 0) (vert raw k 1) (spPos c) (spPos c')).
Proof.
  intros H H'. apply withAt_In in H, H'. destruct H as (p & -> & H), H' as (p' & -> & H'). cbn [atP spPos]. destruct (Hsnd k p H) as (Hk & O & D), (Hsnd k p' H') as (_ & O' & D').
  destruct (o_seg k Hk) as (E0 & E1 & _ & Hin). destruct Hsp as (_ & S2 & S3). destruct (Classical_Prop.classic (p = p')) as [|N]; [now left|right].
  destruct D as [Xp|[Ek Ep]]; destruct D' as [Xp'|[Ek' Ep']].
  - split; [apply apart_far', Hap; auto; now left|]. destruct (S3 _ _ p Hin Xp O) as (_ & _ & L). now apply L.
  - rewrite Ep'. split; [rewrite E1; apply S2; [apply o_vin; lia|auto]|]. destruct (S3 _ _ p Hin Xp O) as (_ & L & _). exact L.
  - rewrite Ep. split; [rewrite E1; apply far_sym, S2; [apply o_vin; lia|auto]|]. intros NL. rewrite dist_sym. destruct (S3 _ _ p' Hin Xp' O') as (_ & L & _). now apply L.
  - congruence.
Qed.

Lemma o_complete k q : (S k < n)%nat -> onSeg (vert raw k 0) (vert raw k 1) q -> X q -> In (k, mkSP q false) cs.
Proof. intros Hk O Hx. apply withAt_In. exists q. split; [reflexivity|]. now apply Hcpl. Qed.

Lemma o_end : In ((n - 2)%nat, mkSP (pos (vert raw (n - 2) 1)) false) cs.
Proof. apply withAt_In. exists (pos (vert raw (n - 2) 1)). split; [reflexivity|exact Hlast]. Qed.

Lemma o_inj k p q : In (k, p) ps -> In (k, q) ps -> dist (pos (at_ raw k)) p = dist (pos (at_ raw k)) q -> p = q.
Proof.
  intros Hp Hq E. destruct (Hsnd k p Hp) as (Hk & Op & _). destruct (Hsnd k q Hq) as (_ & Oq & _). destruct (o_seg k Hk) as (E0 & _ & _ & _).
  assert (Hb : Rabs (bulge (vert raw k 0)) <= 1) by (apply (vert_small raw Hn Hsm)). pose proof (far_ne _ _ (o_far k Hk)) as Hf.
  apply onSeg_path in Op, Oq. destruct Op as (s & Hs & ->), Oq as (t & Ht & ->). rewrite <- E0 in E.
  assert (s = t); [|now subst]. apply Rle_antisym; apply (start_dist_le (vert raw k 0) (vert raw k 1)); auto; lra.
Qed.

Lemma o_cutopen : cutOpen raw X (openParts raw cs).
Proof. apply (open_cut raw X cs Hn Hop Hsm o_far o_cut o_pair o_complete o_end). Qed.

Lemma part_goodO l k : partOpen raw X l -> goodPiece orEnd (openOf k l).
Proof.
  intros (j & a & d & b & Hd & R & C & X1 & X2). destruct (run_ends _ _ _ _ _ _ R) as (E1 & E2 & L2 & L3). unfold goodPiece, openOf. cbn [slPline vertexes isClosed intrStartIndex]. rewrite E1, E2.
  split; [reflexivity|]. split; [auto|]. split; [|split; [|split; [|discriminate]]].
  - intros E. destruct d as [|d]; [|apply L3; lia]. exfalso. rewrite Nat.add_0_r in E. destruct R as (Ha & Hb & u & w & _ & Hab & _). unfold seg in E.
    apply segPath_inj in E; [lra|apply (vert_small raw Hn Hsm)|apply far_ne, o_far; fold n in Hd; lia|auto|auto].
  - destruct X1 as [X1|[-> ->]]; [now left|]. right. left. unfold seg. rewrite segPath_0. f_equal. apply o_seg. lia.
  - destruct X2 as [X2|[E ->]]; [now left|]. fold n in E. right. right. unfold seg. rewrite segPath_1. f_equal. replace (n - 1)%nat with (S (j + d)) by lia. apply o_seg. lia.
Qed.

Hypothesis (Hm : tableOf raw cs m).

Lemma o_k k p : In (k, p) cs -> (S k < n)%nat.
Proof. intros H. apply (o_cut _ _ H). Qed.
Lemma o_st k c : In (k, c) cs -> spStart c = false.
Proof. intros H. apply (o_cut _ _ H). Qed.

Lemma o_sv i : (i < n)%nat -> fuzzyEqual (pos (at_ raw i)) (pos (nextV raw i)) realPrecision = false.
Proof.
  intros Hi. rewrite prec_R. apply far_fuzzy. unfold nextV, nextWrappingIndex. fold n. destruct (Nat.eqb_spec (S i) n).
  - apply far_sym, apart_far', Hap; [right; now left|right; right; now replace (n - 1)%nat with i by lia|]. replace i with (n - 1)%nat by lia. auto.
  - destruct (o_seg i ltac:(lia)) as (E0 & E1 & _). rewrite <- E0, <- E1. apply o_far. lia.
Qed.

Lemma o_own k c : In (k, c) cs -> fuzzyEqual (pos (at_ raw k)) (spPos c) realPrecision = false.
Proof. intros H. destruct (o_cut k c H) as (Hk & _ & t & _ & _ & F & _). destruct (o_seg k Hk) as (E0 & _). rewrite prec_R. apply far_fuzzy. now rewrite <- E0. Qed.

Lemma o_fold : forall ord acc, (forall e, In e ord -> In e m) -> exists kept dropped,
  mfold (offsetSliceOne ts raw false false m) ord acc = Ok (acc ++ map (fun kl => openOf (fst kl) (snd kl)) kept) /\
  Permutation (kept ++ dropped) (flat_map (fun e => map (pair (fst e)) (stretchesO raw cs (fst e))) ord) /\
  (forall kl, In kl kept -> validated ts (snd kl)) /\ (forall kl, In kl dropped -> ~ passes ts false (snd kl)).
Proof.
  induction ord as [|[k l] ord IH]; intros acc Hin.
  - exists [], []. cbn [mfold flat_map map app]. rewrite app_nil_r. split; [reflexivity|]. split; [constructor|]. split; intros ? [].
  - cbn [mfold].
    assert (One : exists new drop, offsetSliceOne ts raw false false m acc (k, l) = Ok (acc ++ map (openOf k) new) /\
      Permutation (new ++ drop) (stretchesO raw cs k) /\ (forall x, In x new -> validated ts x) /\ (forall x, In x drop -> ~ passes ts false x)).
    { assert (Hkl : In (k, l) m) by (apply Hin; now left). assert (Ex : exists l, In (k, l) m) by eauto. apply (key_of raw m cs Hm o_st) in Ex. destruct Ex as (c & Hc). pose proof (o_k k c Hc) as Hk.
      destruct (Nat.eq_dec (S (S k)) n) as [E|N].
      - assert (Ek : k = (n - 2)%nat) by lia. rewrite Ek in *.
        apply (open_last ts Hts raw m cs Hm o_k Hn o_st); auto.
        + destruct (o_seg (n - 2) ltac:(lia)) as (E0 & E1 & _). fold n. replace (n - 1)%nat with (S (n - 2)) by lia. rewrite <- E0, <- E1. apply o_far. lia.
        + destruct (nonempty_end raw X cs Hn Hsm o_far o_cut o_end) as (tt & Et & St & Ht & H1). fold n in Et, Ht. fold n. rewrite Et. destruct tt as [|a tt]; [destruct H1|]. cbn [map]. rewrite last_consD, (last_map (fun t => mkSP (seg raw (n - 2) t) false)). cbn [spPos].
          assert (last tt a = 1). { apply Rle_antisym; [apply (Ht _ (last_In a tt))|apply last_le; auto]. }
          rewrite H. unfold seg. rewrite segPath_1. f_equal. replace (n - 1)%nat with (S (n - 2)) by lia. apply o_seg. lia.
      - apply (open_one ts Hts raw m cs Hm o_k Hn o_st o_sv o_own); auto; [fold n; lia|eexists; exact o_end|].
        intros c' Hc'. destruct (o_cut k c' Hc') as (_ & _ & t & _ & _ & _ & _ & [[? _]|(_ & F & _)]); [lia|]. rewrite prec_R. split; [now apply far_fuzzy|now apply far_fuzzy, far_sym]. }
    destruct One as (new & drop & E & P & V & D).
    rewrite E. cbn [bind]. destruct (IH (acc ++ map (openOf k) new)) as (kept & dropped & E' & P' & V' & D'); [intros; apply Hin; now right|].
    exists (map (pair k) new ++ kept), (map (pair k) drop ++ dropped). split; [|split; [|split]].
    + rewrite E'. rewrite map_app, map_map. cbn [fst snd]. now rewrite <- app_assoc.
    + cbn [flat_map fst]. rewrite <- P', <- P, map_app, <- !app_assoc. apply Permutation_app_head. apply Permutation_app_swap_app.
    + intros kl H. apply in_app_or in H. destruct H as [H|H]; [|auto]. apply in_map_iff in H. destruct H as (x & <- & Hx). now apply V.
    + intros kl H. apply in_app_or in H. destruct H as [H|H]; [|auto]. apply in_map_iff in H. destruct H as (x & <- & Hx). now apply D.
Qed.

Lemma o_keys : Permutation (flat_map (fun e => map (pair (fst e)) (stretchesO raw cs (fst e))) m) (flat_map (fun k => map (pair k) (stretchesO raw cs k)) (seq 0 (n - 1))).
Proof.
  destruct Hm as [Nm Sm].
  assert (E1 : flat_map (fun e : nat * list vec => map (pair (fst e)) (stretchesO raw cs (fst e))) m = flat_map (fun k => map (pair k) (stretchesO raw cs k)) (map fst m)).
  { rewrite !flat_map_concat_map, map_map. reflexivity. }
  rewrite E1. set (ne := fun k => match sortedCuts raw cs k with [] => false | _ :: _ => true end).
  assert (E2 : forall l, flat_map (fun k => map (pair k) (stretchesO raw cs k)) (filter ne l) = flat_map (fun k => map (pair k) (stretchesO raw cs k)) l).
  { induction l as [|k l IH]; [reflexivity|]. cbn [filter flat_map]. unfold ne at 1. destruct (sortedCuts raw cs k) eqn:Es; cbn [flat_map]; rewrite IH; [|reflexivity]. unfold stretchesO at 2. now rewrite Es. }
  rewrite <- (E2 (seq 0 (n - 1))). apply flat_map_perm. apply NoDup_Permutation; [auto|apply NoDup_filter, seq_NoDup|].
  intros k. rewrite filter_In, in_seq. unfold ne. split.
  - intros H. apply in_map_iff in H. destruct H as ([k' l] & E & H). cbn [fst] in E. subst k'. apply Sm in H. destruct H as [El Hl].
    destruct (sortedCuts raw cs k) as [|c t] eqn:Es; [apply map_eq_nil in El; contradiction|]. split; [|reflexivity]. assert (Hc : In (k, c) cs) by (apply (sortedCuts_In raw); rewrite Es; now left). apply o_k in Hc. lia.
  - intros [_ H]. destruct (sortedCuts raw cs k) as [|c t] eqn:Es; [discriminate|]. apply in_map_iff. exists (k, map spPos (c :: t)). split; [reflexivity|]. apply Sm. split; [|discriminate].
    rewrite Es, map_map. rewrite <- (map_id (c :: t)) at 2. apply map_ext_in. intros x Hx. assert (Hc : In (k, x) cs) by (apply (sortedCuts_In raw); now rewrite Es). apply withAt_In in Hc. destruct Hc as (p & -> & _). reflexivity.
Qed.

(** the slices, stitched *)
Lemma o_result mi sls : (let! first := firstSliceLoop (S n) ts raw m emptyPline 0 in mfold (offsetSliceOne ts raw false false m) m first) = Ok sls -> (Z.of_nat (length sls) <= 2 ^ 24)%Z ->
  exists rs, stitchOffsetSlicesTogether sls false mi sliceJoinThreshold = Ok rs /\ keptOfOpen ts (pos (at_ raw 0)) (openParts raw cs) rs.
Proof.
  intros Hs Hlen.
  destruct (first_run raw X cs Hn Hsm o_far o_cut o_end) as (d & b & ts' & l & Hd & Hno & Es & _ & _ & Ef & El & R). fold n in Hd.
  destruct (open_first ts Hts raw m cs Hm Hn o_st o_sv o_own d _ _ Hd Hno Es) as (keep & E1 & K1 & K2). cbn [spPos] in E1, K1, K2. rewrite <- El in E1, K1, K2. fold n in E1.
  assert (Hhd : pos (hd vdflt l) = pos (at_ raw 0)). { destruct (run_ends _ _ _ _ _ _ R) as (H & _). rewrite H. unfold seg. rewrite segPath_0. f_equal. apply o_seg. lia. }
  rewrite E1 in Hs. cbn [bind] in Hs.
  destruct (o_fold m (if keep then [openOf 0 l] else [])) as (kept & dropped & E & P & V & D); [auto|].
  rewrite Hs in E. injection E as ->. rewrite o_keys in P.
  assert (P' : Permutation (map snd kept ++ map snd dropped) (flat_map (stretchesO raw cs) (seq 0 (n - 1)))).
  { rewrite <- map_app. rewrite (Permutation_map snd P). clear. generalize (seq 0 (n - 1)). induction l as [|k l IH]; [reflexivity|]. cbn [flat_map]. rewrite map_app, map_map. cbn [snd]. rewrite map_id. now apply Permutation_app_head. }
  set (fk := if keep then [l] else []). set (fd := if keep then [] else [l]).
  assert (PP : Permutation ((fk ++ map snd kept) ++ (fd ++ map snd dropped)) (openParts raw cs)).
  { unfold openParts. fold n. rewrite Ef, <- P'. unfold fk, fd. destruct keep; cbn [app]; [reflexivity|]. apply Permutation_sym, Permutation_middle. }
  set (all := map (pair 0%nat) fk ++ kept).
  assert (Eall : (if keep then [openOf 0 l] else []) ++ map (fun kl => openOf (fst kl) (snd kl)) kept = map (fun kl => openOf (fst kl) (snd kl)) all).
  { unfold all, fk. rewrite map_app. destruct keep; reflexivity. }
  rewrite Eall in *. assert (Eal2 : map snd all = fk ++ map snd kept). { unfold all. rewrite map_app, map_map. cbn [snd]. now rewrite map_id. }
  destruct (stitch_traces orEnd (map (fun kl => openOf (fst kl) (snd kl)) all) Hap) with (closed := false) (mi := mi) as (rs & Ers & T & Cl & _); auto.
  { intros s H. apply in_map_iff in H. destruct H as (kl & <- & H). apply part_goodO. apply (proj1 o_cutopen). apply (Permutation_in _ PP). apply in_or_app. left. rewrite <- Eal2. now apply in_map. }
  exists rs. split; [exact Ers|]. exists (fk ++ map snd kept), (fd ++ map snd dropped). split; [exact PP|]. split; [|split; [|split; [|auto]]].
  - intros x H. apply in_app_or in H. destruct H as [H|H].
    + unfold fk in H. destruct keep; [|destruct H]. destruct H as [<-|[]]. left. auto.
    + right. apply in_map_iff in H. destruct H as (kl & <- & H). auto.
  - intros x H. apply in_app_or in H. destruct H as [H|H].
    + unfold fd in H. destruct keep; [destruct H|]. destruct H as [<-|[]]. auto.
    + apply in_map_iff in H. destruct H as (kl & <- & H). auto.
  - rewrite T, <- Eal2. rewrite !flat_map_concat_map, !map_map. cbn [openOf slPline]. erewrite map_ext; [reflexivity|]. intros kl. apply trace_open.
Qed.
End Parts.
