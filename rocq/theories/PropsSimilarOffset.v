(** * C70, continued: the raw offset polyline of a translated polyline *)
From Coq Require Import ZArith Reals Lra Lia List Bool Arith.
From Verif Require Import Base Num MathUtils PlineSegment SpatialIndex Polyline Intersects Combine Offset RGeom Spec PropsMath ArcGeom PropsPolyline PropsArea PropsRegion PropsSimilar PropsSimilarPairs.
Import ListNotations.
Open Scope R_scope.

Lemma bind_ext {A B} (m : res A) (k k' : A -> res B) : (forall x, k x = k' x) -> bind m k = bind m k'.
Proof. intros H. destruct m; [apply H|reflexivity|reflexivity]. Qed.
Definition rmap {A B} (f : A -> B) (m : res A) : res B := bind m (fun x => Ok (f x)).
Lemma bind_rmap {A B C} (f : A -> B) (m : res A) (k : B -> res C) : bind (rmap f m) k = bind m (fun x => k (f x)).
Proof. now destruct m. Qed.
Lemma rmap_bind {A B C} (f : B -> C) (m : res A) (k : A -> res B) : rmap f (bind m k) = bind m (fun x => rmap f (k x)).
Proof. now destruct m. Qed.
Lemma rmap_Ok {A B} (f : A -> B) x : rmap f (Ok x) = Ok (f x). Proof. reflexivity. Qed.
Lemma rmap_if {A B} (f : A -> B) (b : bool) x y : rmap f (if b then x else y) = if b then rmap f x else rmap f y.
Proof. now destruct b. Qed.

Section RawOffset.
Variable v : vec.
Local Notation im := (image 1 v).
Local Notation imw := (imv 1 v).

Definition J (pl : polyline) : polyline := mkPline (isClosed pl) (map imw (vertexes pl)).
Lemma J_im pl : imageOf 1 v pl = J pl.
Proof. destruct pl. apply imP_map. Qed.

Lemma pos_im w : pos (imw w) = im (pos w). Proof. reflexivity. Qed.
Lemma bulge_im w : bulge (imw w) = bulge w. Proof. reflexivity. Qed.
Lemma mk_im p b : mkVtx (im p) b = imw (mkVtx p b). Proof. reflexivity. Qed.
Lemma setBulge_im w b : setBulge (imw w) b = imw (setBulge w b). Proof. reflexivity. Qed.
Lemma setPos_im w p : setPos (imw w) (im p) = imw (setPos w p). Proof. reflexivity. Qed.
Lemma zero_im w : bulgeIsZero (imw w) = bulgeIsZero w. Proof. reflexivity. Qed.
Lemma neg_im w : bulgeIsNeg (imw w) = bulgeIsNeg w. Proof. reflexivity. Qed.
Lemma pos_im' w : bulgeIsPos (imw w) = bulgeIsPos w. Proof. reflexivity. Qed.
Lemma rad_im a b : radius (arcRadiusAndCenter (imw a) (imw b)) = radius (arcRadiusAndCenter a b).
Proof. now rewrite arc_im1. Qed.
Lemma cen_im a b : center (arcRadiusAndCenter (imw a) (imw b)) = im (center (arcRadiusAndCenter a b)).
Proof. now rewrite arc_im1. Qed.
Lemma angle_im1 p q : angle (im p) (im q) = angle p q. Proof. apply angle_im, H1. Qed.
Lemma vadd_im1' p q : vadd q (im p) = im (vadd q p).
Proof. unfold vadd, image. apply vec_eq; rcbn; rring. Qed.

Definition imS (s : offsetSeg) : offsetSeg := mkOS (imw (osV1 s)) (imw (osV2 s)) (im (origV2Pos s)) (collapsedArc s).
Lemma os1 s : osV1 (imS s) = imw (osV1 s). Proof. reflexivity. Qed.
Lemma os2 s : osV2 (imS s) = imw (osV2 s). Proof. reflexivity. Qed.
Lemma os3 s : origV2Pos (imS s) = im (origV2Pos s). Proof. reflexivity. Qed.
Lemma os4 s : collapsedArc (imS s) = collapsedArc s. Proof. reflexivity. Qed.
Lemma os5 a b p c : mkOS (imw a) (imw b) (im p) c = imS (mkOS a b p c). Proof. reflexivity. Qed.

Lemma seg_im o a b : offsetSegment o (imw a) (imw b) = imS (offsetSegment o a b).
Proof.
  unfold offsetSegment. rewrite zero_im. destruct (bulgeIsZero a).
  - unfold offsetLine. rewrite !pos_im, vsub_im1, !vadd_im1, !bulge_im. reflexivity.
  - unfold offsetArc. rewrite rad_im, cen_im, !pos_im, !vsub_im1, !vadd_im1', !bulge_im, neg_im. cbv zeta. destruct (tltb _ realThreshold); reflexivity.
Qed.

Lemma J_closed pl : isClosed (J pl) = isClosed pl. Proof. reflexivity. Qed.
Lemma J_size pl : size (J pl) = size pl. Proof. apply map_length. Qed.
Lemma J_vs pl : vertexes (J pl) = map imw (vertexes pl). Proof. reflexivity. Qed.
Lemma mkJ b l : mkPline b (map imw l) = J (mkPline b l). Proof. reflexivity. Qed.
Lemma vget_im pl i : vget (J pl) i = rmap imw (vget pl i).
Proof. unfold vget, rget. rewrite J_vs, nth_error_map. now destruct (nth_error _ _). Qed.
Lemma last_im pl : lastVertex (J pl) = rmap imw (lastVertex pl).
Proof. unfold lastVertex. rewrite J_vs, <- map_rev. now destruct (rev _). Qed.
Lemma setLast_im pl w : setLastVertex (J pl) (imw w) = rmap J (setLastVertex pl w).
Proof. unfold setLastVertex. rewrite J_vs, <- map_rev. destruct (rev _) as [|x l]; [reflexivity|]. cbn [map rmap bind]. unfold J. cbn [isClosed vertexes]. now rewrite map_app, map_rev. Qed.
Lemma pop_im pl : popBack (J pl) = rmap J (popBack pl).
Proof. unfold popBack. rewrite J_vs, <- map_rev. destruct (rev _) as [|x l]; [reflexivity|]. cbn [map rmap bind]. unfold J. cbn [isClosed vertexes]. now rewrite map_rev. Qed.
Lemma upd_map {A B} (f : A -> B) l : forall i a, upd (map f l) i (f a) = map f (upd l i a).
Proof. induction l as [|x l IH]; intros [|i] a; cbn [upd map]; [reflexivity|reflexivity|reflexivity|]. now rewrite IH. Qed.
Lemma rset_im l i a : rset (map imw l) i (imw a) = rmap (map imw) (rset l i a).
Proof. unfold rset. rewrite map_length, upd_map. now destruct (i <? length l)%nat. Qed.
Lemma add_im pl w : addOrReplaceIfSamePos (J pl) (imw w) = J (addOrReplaceIfSamePos pl w).
Proof.
  unfold addOrReplaceIfSamePos, addVertex. rewrite J_vs, <- map_rev. destruct (rev (vertexes pl)) as [|x l] eqn:E; cbn [map].
  - unfold J. cbn [isClosed vertexes]. now rewrite map_app.
  - rewrite !pos_im, fuzzy_im. unfold J. cbn [isClosed vertexes]. destruct (fuzzyEqual _ _ _); cbn [isClosed vertexes]; rewrite map_app; [now rewrite map_rev|reflexivity].
Qed.

Lemma mmap_im {A B C} (g : B -> C) (f' : A -> res C) (f : A -> res B) l : (forall a, f' a = rmap g (f a)) -> mmap f' l = rmap (map g) (mmap f l).
Proof.
  intros H. induction l as [|a l IH]; [reflexivity|]. cbn [mmap]. rewrite H, IH. destruct (f a); [|reflexivity|reflexivity]. destruct (mmap f l); reflexivity.
Qed.

Lemma untrimmed_im pl o : createUntrimmedOffsetSegments (J pl) o = rmap (map imS) (createUntrimmedOffsetSegments pl o).
Proof.
  unfold createUntrimmedOffsetSegments. rewrite J_size, J_closed.
  rewrite (mmap_im imS _ (fun i => let! v1 := vget pl (i - 1) in let! v2 := vget pl i in Ok (offsetSegment o v1 v2))).
  - rewrite bind_rmap, rmap_bind. apply bind_ext. intros segs. rewrite rmap_if. destruct (isClosed pl); [|reflexivity].
    rewrite last_im, vget_im, bind_rmap, rmap_bind. apply bind_ext. intros a. rewrite bind_rmap, rmap_bind. apply bind_ext. intros b.
    rewrite seg_im, rmap_Ok, map_app. reflexivity.
  - intros i. rewrite !vget_im, bind_rmap, rmap_bind. apply bind_ext. intros a. rewrite bind_rmap, rmap_bind. apply bind_ext. intros b. now rewrite seg_im.
Qed.

Lemma bfc_im c a b ccw : bulgeForConnection (im c) (im a) (im b) ccw = bulgeForConnection c a b ccw.
Proof. unfold bulgeForConnection. now rewrite !angle_im1. Qed.
Lemma byArc_im ccw s1 s2 w r : connectUsingArc ccw (imS s1) (imS s2) (imw w) (J r) = J (connectUsingArc ccw s1 s2 w r).
Proof. unfold connectUsingArc. rewrite os1, os2, os3, !pos_im. cbv zeta. now rewrite bfc_im, mk_im, !add_im. Qed.

Lemma ll_im s1 s2 ccw r : lineToLineJoin (imS s1) (imS s2) ccw (J r) = J (lineToLineJoin s1 s2 ccw r).
Proof.
  unfold lineToLineJoin. rewrite !os1, !os2, !os4, !pos_im. cbv zeta. rewrite !mk_im, byArc_im, line_line_im.
  rewrite !add_im. destruct (_ || _)%bool; [reflexivity|]. destruct (intrLineSeg2LineSeg2 _ _ _ _) as [|p|a b|a b p]; cbn [imLL]; [reflexivity| |..].
  - now rewrite mk_im, add_im.
  - reflexivity.
  - destruct (_ && _)%bool; reflexivity.
Qed.

Lemma trimmed_im c u1 u2 p : trimmedArcVertex (im c) (imw u1) (imw u2) (im p) = imw (trimmedArcVertex c u1 u2 p).
Proof. unfold trimmedArcVertex. rewrite !pos_im, !angle_im1, pos_im', bulge_im. cbv zeta. destruct (Bool.eqb _ _); reflexivity. Qed.

Lemma la_im s1 s2 ccw r : lineToArcJoin (imS s1) (imS s2) ccw (J r) = J (lineToArcJoin s1 s2 ccw r).
Proof.
  unfold lineToArcJoin. rewrite !os1, !os2, !os3, !os4. cbv zeta. rewrite rad_im, cen_im, !pos_im, !mk_im, byArc_im, line_circle_im, bulge_im, !add_im.
  assert (P : forall t p,
   (if (negb (falseIntersect t) && pointWithinArcSweepAngle (im (center (arcRadiusAndCenter (osV1 s2) (osV2 s2)))) (im (pos (osV1 s2))) (im (pos (osV2 s2))) (bulge (osV1 s2)) (im p))%bool
    then addOrReplaceIfSamePos (J r) (trimmedArcVertex (im (center (arcRadiusAndCenter (osV1 s2) (osV2 s2)))) (imw (osV1 s2)) (imw (osV2 s2)) (im p))
    else if (tltb t1 t && negb (pointWithinArcSweepAngle (im (center (arcRadiusAndCenter (osV1 s2) (osV2 s2)))) (im (pos (osV1 s2))) (im (pos (osV2 s2))) (bulge (osV1 s2)) (im p)))%bool
    then J (connectUsingArc ccw s1 s2 (osV1 s2) r) else if collapsedArc s1 then J (connectUsingArc ccw s1 s2 (osV1 s2) r)
    else J (addOrReplaceIfSamePos (addOrReplaceIfSamePos r (mkVtx (pos (osV2 s1)) t0)) (osV1 s2))) =
   J (if (negb (falseIntersect t) && pointWithinArcSweepAngle (center (arcRadiusAndCenter (osV1 s2) (osV2 s2))) (pos (osV1 s2)) (pos (osV2 s2)) (bulge (osV1 s2)) p)%bool
    then addOrReplaceIfSamePos r (trimmedArcVertex (center (arcRadiusAndCenter (osV1 s2) (osV2 s2))) (osV1 s2) (osV2 s2) p)
    else if (tltb t1 t && negb (pointWithinArcSweepAngle (center (arcRadiusAndCenter (osV1 s2) (osV2 s2))) (pos (osV1 s2)) (pos (osV2 s2)) (bulge (osV1 s2)) p))%bool
    then connectUsingArc ccw s1 s2 (osV1 s2) r else if collapsedArc s1 then connectUsingArc ccw s1 s2 (osV1 s2) r
    else addOrReplaceIfSamePos (addOrReplaceIfSamePos r (mkVtx (pos (osV2 s1)) t0)) (osV1 s2))).
  { intros t p. rewrite sweep_im, trimmed_im, add_im. destruct (_ && _)%bool; [reflexivity|]. destruct (_ && _)%bool; [reflexivity|]. destruct (collapsedArc s1); reflexivity. }
  destruct (intrLineSeg2Circle2 _ _ _ _) as [|r0|r0 r1]; [reflexivity| |]; rewrite !param_im; [apply P|].
  rewrite !dist_im1. match goal with |- (if ?c then _ else _) = J (if ?c then _ else _) => destruct c end; apply P.
Qed.

Lemma trimPrev_im c w p r : trimPrev (im c) (imw w) (im p) (J r) = rmap J (trimPrev c w p r).
Proof.
  unfold trimPrev. rewrite last_im, bind_rmap, rmap_bind. apply bind_ext. intros x. rewrite zero_im, !pos_im, fuzzy_im. cbv zeta. rewrite cen_im, !angle_im1, pos_im', setBulge_im, setLast_im.
  destruct (_ && _)%bool; [|reflexivity]. destruct (Bool.eqb _ _); reflexivity.
Qed.

Lemma al_im s1 s2 ccw r : arcToLineJoin (imS s1) (imS s2) ccw (J r) = rmap J (arcToLineJoin s1 s2 ccw r).
Proof.
  unfold arcToLineJoin. rewrite !os1, !os2, !os3, !os4. cbv zeta. rewrite rad_im, cen_im, !pos_im, byArc_im, line_circle_im, bulge_im.
  set (arc := arcRadiusAndCenter (osV1 s1) (osV2 s1)).
  assert (P : forall t p,
   (if (negb (falseIntersect t) && pointWithinArcSweepAngle (im (center arc)) (im (pos (osV1 s1))) (im (pos (osV2 s1))) (bulge (osV1 s1)) (im p))%bool
    then let! result := trimPrev (im (center arc)) (imw (osV2 s1)) (im p) (J r) in Ok (addOrReplaceIfSamePos result (mkVtx (im p) t0))
    else Ok (J (connectUsingArc ccw s1 s2 (osV1 s2) r))) =
   rmap J (if (negb (falseIntersect t) && pointWithinArcSweepAngle (center arc) (pos (osV1 s1)) (pos (osV2 s1)) (bulge (osV1 s1)) p)%bool
    then let! result := trimPrev (center arc) (osV2 s1) p r in Ok (addOrReplaceIfSamePos result (mkVtx p t0))
    else Ok (connectUsingArc ccw s1 s2 (osV1 s2) r))).
  { intros t p. rewrite sweep_im, trimPrev_im, bind_rmap. destruct (_ && _)%bool; [|reflexivity]. rewrite rmap_bind. apply bind_ext. intros x. rewrite mk_im, add_im. reflexivity. }
  destruct (intrLineSeg2Circle2 _ _ _ _) as [|r0|r0 r1]; [reflexivity| |]; rewrite !param_im; [apply P|].
  assert (E : (if collapsedArc s2 then im (pos (osV1 s2)) else im (origV2Pos s1)) = im (if collapsedArc s2 then pos (osV1 s2) else origV2Pos s1)) by now destruct (collapsedArc s2).
  rewrite E, !dist_im1. match goal with |- (if ?c then _ else _) = rmap J (if ?c then _ else _) => destruct c end; apply P.
Qed.

Lemma aa_im s1 s2 ccw r : arcToArcJoin (imS s1) (imS s2) ccw (J r) = rmap J (arcToArcJoin s1 s2 ccw r).
Proof.
  unfold arcToArcJoin. rewrite !os1, !os2, !os3. cbv zeta. rewrite !rad_im, !cen_im, !pos_im, byArc_im, circle_circle_im, !bulge_im, add_im.
  set (arc1 := arcRadiusAndCenter (osV1 s1) (osV2 s1)). set (arc2 := arcRadiusAndCenter (osV1 s2) (osV2 s2)).
  assert (P : forall p,
   (if (pointWithinArcSweepAngle (im (center arc1)) (im (pos (osV1 s1))) (im (pos (osV2 s1))) (bulge (osV1 s1)) (im p) && pointWithinArcSweepAngle (im (center arc2)) (im (pos (osV1 s2))) (im (pos (osV2 s2))) (bulge (osV1 s2)) (im p))%bool
    then let! result := trimPrev (im (center arc1)) (imw (osV2 s1)) (im p) (J r) in Ok (addOrReplaceIfSamePos result (trimmedArcVertex (im (center arc2)) (imw (osV1 s2)) (imw (osV2 s2)) (im p)))
    else Ok (J (connectUsingArc ccw s1 s2 (osV1 s2) r))) =
   rmap J (if (pointWithinArcSweepAngle (center arc1) (pos (osV1 s1)) (pos (osV2 s1)) (bulge (osV1 s1)) p && pointWithinArcSweepAngle (center arc2) (pos (osV1 s2)) (pos (osV2 s2)) (bulge (osV1 s2)) p)%bool
    then let! result := trimPrev (center arc1) (osV2 s1) p r in Ok (addOrReplaceIfSamePos result (trimmedArcVertex (center arc2) (osV1 s2) (osV2 s2) p))
    else Ok (connectUsingArc ccw s1 s2 (osV1 s2) r))).
  { intros p. rewrite !sweep_im, trimPrev_im, bind_rmap, trimmed_im. destruct (_ && _)%bool; [|reflexivity]. rewrite rmap_bind. apply bind_ext. intros x. rewrite add_im. reflexivity. }
  destruct (intrCircle2Circle2 _ _ _ _) as [|p|p q|]; cbn [imCC]; [reflexivity|apply P| |reflexivity].
  rewrite !dist_im1. match goal with |- (if ?c then _ else _) = rmap J (if ?c then _ else _) => destruct c end; apply P.
Qed.

Lemma join_im ccw s1 s2 r : joinSegs ccw (imS s1) (imS s2) (J r) = rmap J (joinSegs ccw s1 s2 r).
Proof.
  unfold joinSegs. rewrite !os1, !zero_im, ll_im, la_im, al_im, aa_im. cbv zeta. destruct (bulgeIsZero (osV1 s1)), (bulgeIsZero (osV1 s2)); reflexivity.
Qed.
Lemma joinAll_im ccw l : forall s r, joinAll ccw (imS s) (map imS l) (J r) = rmap J (joinAll ccw s l r).
Proof.
  induction l as [|x l IH]; intros s r; [reflexivity|]. cbn [map joinAll]. rewrite join_im, bind_rmap, rmap_bind. apply bind_ext. intros y. apply IH.
Qed.

Lemma close_im ccw b s1 s2 r : closeRaw ccw b (imS s1) (imS s2) (J r) = rmap J (closeRaw ccw b s1 s2 r).
Proof.
  unfold closeRaw. rewrite last_im, bind_rmap, rmap_bind. apply bind_ext. intros lv.
  change (mkPline false [imw lv]) with (J (mkPline false [lv])). rewrite join_im, bind_rmap, rmap_bind. apply bind_ext. intros cl.
  rewrite vget_im, bind_rmap, rmap_bind. apply bind_ext. intros c0. rewrite setLast_im, bind_rmap, rmap_bind. apply bind_ext. intros r1.
  assert (E : mkPline (isClosed (J r1)) (vertexes (J r1) ++ tl (vertexes (J cl))) = J (mkPline (isClosed r1) (vertexes r1 ++ tl (vertexes cl)))).
  { unfold J. cbn [isClosed vertexes]. rewrite map_app. f_equal. f_equal. now destruct (vertexes cl). }
  rewrite E, pop_im, bind_rmap, rmap_bind. apply bind_ext. intros r2.
  match goal with |- bind ?a _ = rmap J (bind ?b _) => assert (E2 : a = rmap J b) end.
  { rewrite rmap_if. destruct (negb b); [|reflexivity]. rewrite last_im, bind_rmap, rmap_bind. apply bind_ext. intros w. cbv zeta.
    rewrite vget_im, bind_rmap, rmap_bind. apply bind_ext. intros a. rewrite zero_im, pos_im, setPos_im, J_vs, rset_im, J_size, J_closed, rmap_if.
    destruct (bulgeIsZero a).
    { rewrite bind_rmap, rmap_bind. apply bind_ext. intros vs. reflexivity. }
    rewrite rmap_if. destruct (1 <? size r2)%nat; [|reflexivity]. rewrite vget_im, bind_rmap, rmap_bind. apply bind_ext. intros a1.
    rewrite cen_im, pos_im, !angle_im1, neg_im, pos_im', mk_im. destruct (_ || _)%bool; rewrite rset_im, bind_rmap, rmap_bind; apply bind_ext; intros vs; reflexivity. }
  rewrite E2, bind_rmap, rmap_bind. apply bind_ext. intros r3. rewrite J_size, rmap_if. destruct (1 <? size r3)%nat; [|reflexivity].
  rewrite vget_im, bind_rmap, rmap_bind. apply bind_ext. intros a. rewrite vget_im, bind_rmap, rmap_bind. apply bind_ext. intros b1. rewrite !pos_im, fuzzy_im, rmap_if.
  destruct (fuzzyEqual _ _ _); [|reflexivity]. rewrite rmap_Ok. unfold J. cbn [isClosed vertexes]. do 2 f_equal. now destruct (vertexes r3).
Qed.

Lemma last_map {A B} (f : A -> B) l d : last (map f l) (f d) = f (last l d).
Proof. induction l as [|x [|y l] IH]; [reflexivity|reflexivity|exact IH]. Qed.

Theorem C70_translate_raw_offset pl o : createRawOffsetPline (translatePolyline pl v) o = let! r := createRawOffsetPline pl o in Ok (translatePolyline r v).
Proof.
  transitivity (rmap J (createRawOffsetPline pl o)).
  2:{ unfold rmap. apply bind_ext. intros r. now rewrite <- translate_image, J_im. }
  rewrite <- translate_image, J_im. unfold createRawOffsetPline. rewrite J_size, untrimmed_im, J_closed. destruct (size pl <? 2)%nat; [reflexivity|].
  rewrite bind_rmap, rmap_bind. apply bind_ext. intros [|seg0 rest]; [reflexivity|]. cbn [map]. rewrite os4. cbn [length]. rewrite map_length, rmap_if. destruct (_ && _)%bool; [reflexivity|].
  cbv zeta. rewrite os1. change (mkPline (isClosed pl) [imw (osV1 seg0)]) with (J (mkPline (isClosed pl) [osV1 seg0])). rewrite last_map, os2.
  match goal with |- bind ?a _ = rmap J (bind ?b _) => assert (E2 : a = rmap (fun x => (J (fst x), snd x)) b) end.
  { destruct rest as [|s1 rest]; [reflexivity|]. cbn [map]. rewrite join_im, bind_rmap, rmap_bind. apply bind_ext. intros r1. rewrite joinAll_im, bind_rmap, rmap_bind, J_size. apply bind_ext. intros r2. reflexivity. }
  rewrite E2, bind_rmap, rmap_bind. apply bind_ext. intros [r1 rep]. cbn [fst snd]. rewrite J_size, add_im, close_im.
  match goal with |- bind ?a _ = rmap J (bind ?b _) => assert (E3 : a = rmap J b) end.
  { rewrite rmap_if. destruct (_ && _)%bool; reflexivity. }
  rewrite E3, bind_rmap, rmap_bind. apply bind_ext. intros r2. rewrite J_size, rmap_Ok. destruct (size r2 =? 1)%nat; reflexivity.
Qed.
End RawOffset.
