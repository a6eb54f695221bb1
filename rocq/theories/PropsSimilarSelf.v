(** * C70, continued: self intersections and mutual intersections of translated polylines, with the order of the answers *)
From Coq Require Import ZArith NArith Reals Lra Lia List Bool Arith.
From Verif Require Import Base Num MathUtils PlineSegment SpatialIndex Polyline Intersects RGeom Spec PropsMath ArcGeom PropsPolyline PropsPlineIndex PropsFindIntr PropsArea PropsRegion PropsSimilar PropsSimilarPairs PropsSimilarFind Combine Offset PropsSimilarOffset PropsSimilarIndex.
Import ListNotations.
Open Scope R_scope.

Section Self.
Variable v : vec.
Local Notation im := (image 1 v).
Local Notation imw := (imv 1 v).
Local Notation J := (J v).
Local Notation sI := (shiftIntr v).
Local Notation sC := (shiftCIntr v).
Local Notation shIx := (shIx v).

Lemma mkIntr_im i j p : mkIntr i j (im p) = sI (mkIntr i j p).
Proof. unfold shiftIntr. cbn [sIndex1 sIndex2 ipos]. now rewrite shift_image. Qed.
Lemma mkC_im i j p q : mkCIntr i j (im p) (im q) = sC (mkCIntr i j p q).
Proof. unfold shiftCIntr. cbn [cIndex1 cIndex2 cpoint1 cpoint2]. now rewrite !shift_image. Qed.
Lemma ipos_im x : ipos (sI x) = im (ipos x).
Proof. unfold shiftIntr. cbn [ipos]. now rewrite shift_image. Qed.

Lemma test_im pl out i j k : testAndAddIntersect (J pl) (map sI out) i j k = rmap (map sI) (testAndAddIntersect pl out i j k).
Proof.
  unfold testAndAddIntersect. rewrite !vget_im. do 3 (rewrite bind_rmap, rmap_bind; apply bind_ext; intros ?). rewrite !pos_im, fuzzy_im, rmap_if.
  destruct (fuzzyEqual (pos _) (pos _) _); [rewrite mkIntr_im, rmap_Ok, map_app; reflexivity|].
  cbv zeta. rewrite C70_translate_segments. destruct (intrPlineSegs _ _ _ _) as [|p|p q|p q|p q]; cbn [imIntr]; rewrite ?fuzzy_im, ?mkIntr_im, ?rmap_Ok, ?map_app; try reflexivity.
  - destruct (negb _); reflexivity.
  - destruct (negb (fuzzyEqual p _ _)), (negb (fuzzyEqual q _ _)); reflexivity.
Qed.

Lemma local_im pl out : localSelfIntersects (J pl) (map sI out) = rmap (map sI) (localSelfIntersects pl out).
Proof.
  unfold localSelfIntersects. rewrite !J_size, J_closed, !rmap_if. destruct (size pl <? 2)%nat; [reflexivity|]. destruct (size pl =? 2)%nat.
  - destruct (isClosed pl); [|reflexivity]. rewrite !vget_im. do 2 (rewrite bind_rmap, rmap_bind; apply bind_ext; intros ?). rewrite !bulge_im, !pos_im, !mkIntr_im, rmap_if, !rmap_Ok, map_app. reflexivity.
  - rewrite (mfold_sh (map sI) _ (fun out i => testAndAddIntersect pl out (i - 2) (i - 1) i)) by (intros; apply test_im).
    rewrite bind_rmap, rmap_bind. apply bind_ext. intros o. rewrite rmap_if. destruct (isClosed pl); [|reflexivity]. rewrite test_im, bind_rmap, rmap_bind. apply bind_ext. intros o'. apply test_im.
Qed.

Lemma pair_im i h v1 v2 u1 u2 : globalPairIntrs i h (imw v1) (imw v2) (imw u1) (imw u2) = map sI (globalPairIntrs i h v1 v2 u1 u2).
Proof.
  unfold globalPairIntrs. rewrite C70_translate_segments, !pos_im. destruct (intrPlineSegs _ _ _ _) as [|p|p q|p q|p q]; cbn [imIntr]; rewrite ?fuzzy_im, ?mkIntr_im; [reflexivity| |..].
  1: now destruct (negb _).
  all: destruct (negb (fuzzyEqual (pos v1) p _ || _)), (negb (fuzzyEqual (pos v1) q _ || _)); reflexivity.
Qed.

Definition gS (st : res (list (nat * nat) * list pIntr)) : res (list (nat * nat) * list pIntr) := rmap (fun r => (fst r, map sI (snd r))) st.

Lemma gvis_im pl i j v1 v2 st h : globalIndexVisitor (J pl) i j (imw v1) (imw v2) (gS st) h =
  (fst (globalIndexVisitor pl i j v1 v2 st h), gS (snd (globalIndexVisitor pl i j v1 v2 st h))).
Proof.
  unfold globalIndexVisitor. cbn [fst snd]. f_equal. unfold gS. rewrite bind_rmap, rmap_bind. apply bind_ext. intros [vis out]. cbn [fst snd]. rewrite J_size. cbv zeta. rewrite !rmap_if.
  destruct (_ || _)%bool; [reflexivity|]. destruct (pairMem _ _ _); [reflexivity|]. rewrite !vget_im. do 2 (rewrite bind_rmap, rmap_bind; apply bind_ext; intros ?).
  rewrite pair_im, rmap_Ok. cbn [fst snd]. now rewrite map_app.
Qed.

Lemma xsub_sh k x d : @xsubt ROps (shX k x) d = shX k (@xsubt ROps x d).
Proof. destruct x; try reflexivity. cbn [shX ext_map xsubt ROps]. f_equal. rring. Qed.
Lemma xadd_sh k x d : @xaddt ROps (shX k x) d = shX k (@xaddt ROps x d).
Proof. destruct x; try reflexivity. cbn [shX ext_map xaddt ROps]. f_equal. rring. Qed.

Lemma gitem_im n ix pl st i b : globalItemVisitor n (shIx ix) (J pl) (gS st) i (shB v b) =
  (fst (globalItemVisitor n ix pl st i b), gS (snd (globalItemVisitor n ix pl st i b))).
Proof.
  unfold globalItemVisitor. cbn [fst snd]. f_equal. unfold gS at 1 2. rewrite bind_rmap, rmap_bind. apply bind_ext. intros s. rewrite J_size. cbv zeta. rewrite !vget_im.
  do 2 (rewrite bind_rmap, rmap_bind; apply bind_ext; intros ?). cbn [shB bMinX bMinY bMaxX bMaxY]. rewrite !xsub_sh, !xadd_sh.
  change (Ok (fst s, map sI (snd s))) with (gS (Ok s)).
  rewrite (visitQuery_sh v gS _ (globalIndexVisitor pl i (nextWrappingIndex i (size pl)) x x0)) by (intros; apply gvis_im).
  rewrite bind_rmap, rmap_bind. apply bind_ext. intros r. reflexivity.
Qed.

Lemma global_im n pl out ix : globalSelfIntersects n (J pl) (map sI out) (shIx ix) = rmap (map sI) (globalSelfIntersects n pl out ix).
Proof.
  unfold globalSelfIntersects. rewrite J_size, rmap_if. destruct (size pl <? 3)%nat; [reflexivity|].
  change (Ok ([], map sI out)) with (gS (Ok ([], out))). rewrite (visitItems_sh v gS _ (globalItemVisitor n ix pl)) by (intros; apply gitem_im).
  rewrite bind_rmap, rmap_bind. apply bind_ext. intros r. unfold gS. rewrite bind_rmap, rmap_bind. apply bind_ext. intros [vis o]. reflexivity.
Qed.

Theorem C70_translate_self_intersects n pl out ix :
  allSelfIntersects n (translatePolyline pl v) (map sI out) (shIx ix) = let! r := allSelfIntersects n pl out ix in Ok (map sI r).
Proof.
  rewrite <- translate_image, J_im. change (allSelfIntersects n (J pl) (map sI out) (shIx ix) = rmap (map sI) (allSelfIntersects n pl out ix)).
  unfold allSelfIntersects. rewrite local_im, bind_rmap, rmap_bind. apply bind_ext. intros o. apply global_im.
Qed.

Definition gF (st : findSt) : findSt := mkFind (map sI (fIntrs st)) (map sC (fCoinc st)) (fDups st).
Lemma findPair_im pl1 pl2 i2 a b st i1 : findPair (J pl1) (J pl2) i2 (imw a) (imw b) (gF st) i1 = rmap gF (findPair pl1 pl2 i2 a b st i1).
Proof.
  unfold findPair. rewrite !J_size. cbv zeta. rewrite !vget_im. do 2 (rewrite bind_rmap, rmap_bind; apply bind_ext; intros ?). rewrite C70_translate_segments, !pos_im.
  destruct (intrPlineSegs _ _ _ _) as [|p|p q|p q|p q]; cbn [imIntr]; rewrite ?fuzzy_im, ?mkIntr_im, ?mkC_im, ?rmap_Ok; unfold gF; cbn [fIntrs fCoinc fDups]; rewrite ?map_app; try reflexivity.
  - destruct (negb _); reflexivity.
  - destruct (negb (fuzzyEqual _ p _ || _)), (negb (fuzzyEqual _ q _ || _)); reflexivity.
Qed.

Lemma dup_im pl1 pl2 d x : isDuplicate (J pl1) (J pl2) d (sI x) = isDuplicate pl1 pl2 d x.
Proof.
  unfold isDuplicate. rewrite !J_size, ipos_im. change (sIndex1 (sI x)) with (sIndex1 x). change (sIndex2 (sI x)) with (sIndex2 x). destruct (negb _); [reflexivity|].
  rewrite !vget_im, bind_rmap. apply bind_ext. intros a. rewrite pos_im, fuzzy_im. destruct (fuzzyEqual _ _ _); [reflexivity|]. rewrite bind_rmap. apply bind_ext. intros b. now rewrite pos_im, fuzzy_im.
Qed.
Lemma removeIf_im {A} (g : A -> A) (p' p : A -> res bool) l : (forall a, p' (g a) = p a) -> removeIf p' (map g l) = rmap (map g) (removeIf p l).
Proof.
  intros H. induction l as [|a l IH]; [reflexivity|]. cbn [map removeIf]. rewrite H, IH, rmap_bind. apply bind_ext. intros b. rewrite bind_rmap, rmap_bind. apply bind_ext. intros t. now destruct b.
Qed.

Lemma findSeg_im n pl1 pl2 ix st i j : findSegVisitor n (J pl1) (J pl2) (shIx ix) (rmap gF st) i j =
  (fst (findSegVisitor n pl1 pl2 ix st i j), rmap gF (snd (findSegVisitor n pl1 pl2 ix st i j))).
Proof.
  unfold findSegVisitor. cbn [fst snd]. f_equal. rewrite bind_rmap, rmap_bind. apply bind_ext. intros s. rewrite !vget_im. do 2 (rewrite bind_rmap, rmap_bind; apply bind_ext; intros ?).
  rewrite box_im. cbv zeta. set (b := createFastApproxBoundingBox x x0). rewrite rmap_bind.
  match goal with |- bind ?a _ = bind ?c _ => assert (E : a = c) end.
  { transitivity (query n (shIx ix) (Fin (vx v + (xMin b - @realPrecision ROps))) (Fin (vy v + (yMin b - @realPrecision ROps))) (Fin (vx v + (xMax b + @realPrecision ROps))) (Fin (vy v + (yMax b + @realPrecision ROps))) []).
    - f_equal; unfold imAABB, imBox; cbn [xMin xMax yMin yMax inj ROps tsub tadd]; f_equal; ring.
    - apply C70_translate_query. }
  rewrite E. apply bind_ext. intros l. apply mfold_sh. intros; apply findPair_im.
Qed.

(** the same intersections in the same order, moved; also when an index of another polyline is passed *)
Theorem C70_translate_find_intersects n pl1 pl2 ix intrs coincs :
  findIntersects n (translatePolyline pl1 v) (translatePolyline pl2 v) (shIx ix) (map sI intrs) (map sC coincs) =
  let! r := findIntersects n pl1 pl2 ix intrs coincs in Ok (map sI (fst r), map sC (snd r)).
Proof.
  rewrite <- !translate_image. unfold findIntersects.
  pose proof (visit_eq 1 v (rmap gF) pl2 (findSegVisitor n (imageOf 1 v pl1) (imageOf 1 v pl2) (shIx ix)) (findSegVisitor n pl1 pl2 ix)) as V.
  change (Ok (mkFind (map sI intrs) (map sC coincs) [])) with (rmap gF (Ok (mkFind intrs coincs []))). rewrite V; clear V.
  2:{ intros st i j Hi Hj. rewrite !J_im. apply findSeg_im. }
  rewrite bind_rmap. destruct (visitSegIndices pl2 _ _) as [st| |]; [|reflexivity|reflexivity]. cbn [bind]. rewrite !J_im. cbn [gF fDups fIntrs fCoinc].
  rewrite (removeIf_im sI _ (isDuplicate pl1 pl2 (fDups st))) by (intros; apply dup_im). rewrite bind_rmap. destruct (removeIf _ _) as [l| |]; reflexivity.
Qed.
End Self.
