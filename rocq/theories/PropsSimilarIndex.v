(** * C70, continued: the spatial index of a translated polyline *)
From Coq Require Import ZArith NArith Reals Lra Lia List Bool Arith.
From Verif Require Import Base Num MathUtils PlineSegment SpatialIndex Polyline Intersects RGeom Spec PropsMath ArcGeom PropsPolyline PropsArea PropsRegion PropsSimilar PropsSimilarPairs Combine Offset PropsSimilarOffset.
Import ListNotations.
Open Scope R_scope.

Lemma rmap_id {A} (m : res A) : rmap (fun x => x) m = m.
Proof. now destruct m. Qed.

Section Index.
Variable v : vec.
Local Notation im := (image 1 v).
Local Notation imw := (imv 1 v).
Local Notation J := (J v).
Existing Instance ROrd.

Definition shX (k : R) (x : ext) : ext := ext_map (fun r => k + r * 1) x.
(** a box of the index, moved; infinite bounds stay *)
Definition shB (b : @box ROrd) : @box ROrd :=
  @mkBox ROrd (shX (vx v) (bMinX b)) (shX (vy v) (bMinY b)) (shX (vx v) (bMaxX b)) (shX (vy v) (bMaxY b)).
Definition shBs (l : list (option (@box ROrd))) : list (option (@box ROrd)) := map (option_map shB) l.
(** the index over the moved boxes: same tree *)
Definition shIx (ix : @index ROrd) : @index ROrd :=
  @mkIndex ROrd (shX (vx v) (m_minX ix)) (shX (vy v) (m_minY ix)) (shX (vx v) (m_maxX ix)) (shX (vy v) (m_maxY ix))
    (m_numItems ix) (m_numLevels ix) (m_levelBounds ix) (m_numNodes ix) (shBs (m_boxes ix)) (m_indices ix) (m_pos ix).

Lemma xlt_sh k a b : @xltb ROrd (shX k a) (shX k b) = @xltb ROrd a b.
Proof. destruct a, b; try reflexivity. cbn [shX ext_map xltb ROrd ext_ltb]. apply Rltb_im. lra. Qed.
Lemma xif_sh k (c : bool) a b : (if c then shX k a else shX k b) = shX k (if c then a else b).
Proof. now destruct c. Qed.
Lemma hil_sh k a b c d : @xhil ROrd (shX k a) (shX k b) (shX k c) (shX k d) = @xhil ROrd a b c d.
Proof.
  destruct a, b, c, d; try reflexivity. cbn [shX ext_map xhil ROrd Rhil].
  match goal with |- context [Reqb (k + ?h * 1 - (k + ?l * 1)) 0] => replace (k + h * 1 - (k + l * 1)) with (h - l) by ring;
    match goal with |- context [(k + ?m * 1 + (k + ?n * 1)) / 2 - _] => replace ((k + m * 1 + (k + n * 1)) / 2 - (k + l * 1)) with ((m + n) / 2 - l) by field end end.
  reflexivity.
Qed.

Lemma rgetI_sh l i : rgetI (shBs l) i = rmap shB (rgetI l i).
Proof. unfold rgetI, shBs. rewrite nth_error_map. destruct (nth_error l i) as [[b|]|]; reflexivity. Qed.
Lemma rget_sh l i : rget (shBs l) i = rmap (option_map shB) (rget l i).
Proof. unfold rget, shBs. rewrite nth_error_map. destruct (nth_error l i); reflexivity. Qed.
Lemma rset_sh l i b : rset (shBs l) i (option_map shB b) = rmap shBs (rset l i b).
Proof. unfold rset, shBs. rewrite map_length, upd_map. now destruct (i <? length l)%nat. Qed.
Lemma rset_sh1 l i b : rset (shBs l) i (Some (shB b)) = rmap shBs (rset l i (Some b)).
Proof. exact (rset_sh l i (Some b)). Qed.
Lemma len_sh l : length (shBs l) = length l. Proof. apply map_length. Qed.

Lemma construct_sh n m : @construct ROrd n m = rmap shIx (@construct ROrd n m).
Proof.
  unfold construct. rewrite rmap_bind. apply bind_ext. intros nl. rewrite rmap_bind. apply bind_ext. intros lb. rewrite rmap_bind. apply bind_ext. intros [nn lb'].
  rewrite rmap_Ok. unfold shIx. cbn. f_equal. f_equal. unfold shBs. induction nn as [|nn IH]; [reflexivity|]. cbn [repeat map option_map]. now rewrite <- IH.
Qed.

Lemma add_sh ix a b c d : add (shIx ix) (shX (vx v) a) (shX (vy v) b) (shX (vx v) c) (shX (vy v) d) = rmap shIx (add ix a b c d).
Proof.
  unfold add. cbv zeta. cbn [m_pos m_indices m_boxes shIx]. rewrite rmap_bind. apply bind_ext. intros ixs.
  change (@mkBox ROrd (shX (vx v) a) (shX (vy v) b) (shX (vx v) c) (shX (vy v) d)) with (shB (@mkBox ROrd a b c d)).
  rewrite rset_sh1, bind_rmap, rmap_bind. apply bind_ext. intros bxs. rewrite rmap_Ok. unfold shIx. cbn [m_minX m_minY m_maxX m_maxY m_numItems m_numLevels m_levelBounds m_numNodes m_boxes m_indices m_pos].
  rewrite !xlt_sh, !xif_sh. reflexivity.
Qed.

Definition shS (s : @sortSt ROrd) : @sortSt ROrd := @mkSort ROrd (sValues s) (shBs (sBoxes s)) (sIndices s).
Lemma swap_sh s i j : swap (shS s) i j = rmap shS (swap s i j).
Proof.
  unfold swap. cbn [shS sValues sBoxes sIndices].
  do 4 (rewrite rmap_bind; apply bind_ext; intros ?). rewrite rget_sh, bind_rmap, rmap_bind. apply bind_ext. intros bi.
  rewrite rget_sh, bind_rmap, rmap_bind. apply bind_ext. intros bj. rewrite rset_sh, bind_rmap, rmap_bind. apply bind_ext. intros b1.
  rewrite rset_sh, bind_rmap, rmap_bind. apply bind_ext. intros b2. do 4 (rewrite rmap_bind; apply bind_ext; intros ?). reflexivity.
Qed.
Lemma partition_sh p fuel : forall s i j, partition_loop fuel p (shS s) i j = rmap (fun r => (fst r, shS (snd r))) (partition_loop fuel p s i j).
Proof.
  induction fuel as [|fuel IH]; intros s i j; [reflexivity|]. cbn [partition_loop]. change (sValues (shS s)) with (sValues s).
  rewrite rmap_bind. apply bind_ext. intros i'. rewrite rmap_bind. apply bind_ext. intros j'. rewrite rmap_if. destruct (j' <=? i')%nat; [reflexivity|].
  rewrite swap_sh, bind_rmap, rmap_bind. apply bind_ext. intros s'. destruct j'; [reflexivity|]. apply IH.
Qed.
Lemma sort_sh n fuel : forall s l r, sort fuel n (shS s) l r = rmap shS (sort fuel n s l r).
Proof.
  induction fuel as [|fuel IH]; intros s l r; [reflexivity|]. cbn [sort]. rewrite rmap_if. destruct (_ <=? _)%nat; [reflexivity|]. change (sValues (shS s)) with (sValues s).
  rewrite rmap_bind. apply bind_ext. intros p. rewrite partition_sh, bind_rmap, rmap_bind. apply bind_ext. intros [j s']. cbn [fst snd]. rewrite IH, bind_rmap, rmap_bind. apply bind_ext. intros s2. apply IH.
Qed.

Lemma hv_sh ix b : hilbertValue (shIx ix) (shB b) = hilbertValue ix b.
Proof. unfold hilbertValue. cbn [shIx shB m_minX m_minY m_maxX m_maxY bMinX bMinY bMaxX bMaxY]. now rewrite !hil_sh. Qed.

Lemma nodeBox_sh k l e : forall p nb, nodeBox_loop k (shBs l) p e (shB nb) = rmap (fun r => (fst r, shB (snd r))) (nodeBox_loop k l p e nb).
Proof.
  induction k as [|k IH]; intros p nb; [reflexivity|]. cbn [nodeBox_loop]. rewrite rmap_if. destruct (p <? e)%nat; [|reflexivity].
  rewrite rgetI_sh, bind_rmap, rmap_bind. apply bind_ext. intros b. rewrite <- IH. unfold shB at 2 3 4 5 6 7 8 9 10 11 12 13 14 15 16 17. cbn [bMinX bMinY bMaxX bMaxY].
  cbn [shB bMinX bMinY bMaxX bMaxY]. rewrite !xlt_sh, !xif_sh. reflexivity.
Qed.

Definition shBu (s : @buildSt ROrd) : @buildSt ROrd := @mkBuild ROrd (bsPos s) (shBs (bsBoxes s)) (bsIndices s) (bsMPos s).
Lemma level_sh n e fuel : forall s, level_loop fuel n e (shBu s) = rmap shBu (level_loop fuel n e s).
Proof.
  induction fuel as [|fuel IH]; intros s; [reflexivity|]. cbn [level_loop]. cbv zeta. cbn [shBu bsPos bsBoxes bsIndices bsMPos]. rewrite rmap_if. destruct (_ <? e)%nat; [|reflexivity].
  change (@mkBox ROrd xinf xinf xninf xninf) with (shB (@mkBox ROrd xinf xinf xninf xninf)) at 1. rewrite nodeBox_sh, bind_rmap, rmap_bind. apply bind_ext. intros [p nb]. cbn [fst snd].
  rewrite rmap_bind. apply bind_ext. intros ixs. rewrite rset_sh1, bind_rmap, rmap_bind. apply bind_ext. intros bxs.
  exact (IH (@mkBuild ROrd p bxs ixs (bsMPos s + 4))).
Qed.
Lemma levels_sh n lb k : forall i s, levels_loop k n lb i (shBu s) = rmap shBu (levels_loop k n lb i s).
Proof.
  induction k as [|k IH]; intros i s; [reflexivity|]. cbn [levels_loop]. rewrite rmap_bind. apply bind_ext. intros e. change (bsBoxes (shBu s)) with (shBs (bsBoxes s)). rewrite len_sh, level_sh, bind_rmap, rmap_bind. apply bind_ext. intros s'. apply IH.
Qed.

Lemma mmap_ext {A B} (f g : A -> res B) l : (forall a, f a = g a) -> mmap f l = mmap g l.
Proof. intros H. induction l as [|a l IH]; [reflexivity|]. cbn [mmap]. now rewrite H, IH. Qed.

Lemma finish_sh n ix : finish n (shIx ix) = rmap shIx (finish n ix).
Proof.
  unfold finish. change (m_numItems (shIx ix)) with (m_numItems ix). rewrite rmap_if. destruct (_ <=? n)%nat.
  - cbn [shIx m_indices m_pos m_boxes m_minX m_minY m_maxX m_maxY m_numItems m_numLevels m_levelBounds m_numNodes]. rewrite rmap_bind. apply bind_ext. intros ixs.
    change (@mkBox ROrd (shX (vx v) (m_minX ix)) (shX (vy v) (m_minY ix)) (shX (vx v) (m_maxX ix)) (shX (vy v) (m_maxY ix))) with (shB (@mkBox ROrd (m_minX ix) (m_minY ix) (m_maxX ix) (m_maxY ix))).
    rewrite rset_sh1, bind_rmap, rmap_bind. apply bind_ext. intros bxs. reflexivity.
  - change (m_boxes (shIx ix)) with (shBs (m_boxes ix)). change (m_indices (shIx ix)) with (m_indices ix). change (m_pos (shIx ix)) with (m_pos ix).
    rewrite (mmap_ext _ (fun i => let! b := rgetI (m_boxes ix) i in hilbertValue ix b)) by (intros i; rewrite rgetI_sh, bind_rmap; apply bind_ext; intros b; apply hv_sh).
    rewrite rmap_bind. apply bind_ext. intros hv. change (@mkSort ROrd hv (shBs (m_boxes ix)) (m_indices ix)) with (shS (@mkSort ROrd hv (m_boxes ix) (m_indices ix))).
    rewrite sort_sh, bind_rmap, rmap_bind. apply bind_ext. intros s. change (@mkBuild ROrd 0 (sBoxes (shS s)) (sIndices (shS s)) (m_pos ix)) with (shBu (@mkBuild ROrd 0 (sBoxes s) (sIndices s) (m_pos ix))).
    change (m_numLevels (shIx ix)) with (m_numLevels ix). change (m_levelBounds (shIx ix)) with (m_levelBounds ix). rewrite levels_sh, bind_rmap, rmap_bind. apply bind_ext. intros b. reflexivity.
Qed.

Lemma addAABB_sh ix b : addAABB (shIx ix) (imAABB v b) = rmap shIx (addAABB ix b).
Proof. exact (add_sh ix (Fin (xMin b)) (Fin (yMin b)) (Fin (xMax b)) (Fin (yMax b))). Qed.

Lemma mfold_sh {A S} (g : S -> S) (f' f : S -> A -> res S) l : (forall s a, f' (g s) a = rmap g (f s a)) -> forall s, mfold f' l (g s) = rmap g (mfold f l s).
Proof. intros H. induction l as [|a l IH]; intros s; [reflexivity|]. cbn [mfold]. rewrite H, bind_rmap, rmap_bind. apply bind_ext. intros s'. apply IH. Qed.

(** the index of the translated polyline is the same tree over the translated boxes *)
Theorem C70_translate_index pl : createApproxSpatialIndex (translatePolyline pl v) = let! ix := createApproxSpatialIndex pl in Ok (shIx ix).
Proof.
  rewrite <- translate_image, J_im. change (createApproxSpatialIndex (J pl) = rmap shIx (createApproxSpatialIndex pl)).
  unfold createApproxSpatialIndex. cbv zeta. rewrite J_size, J_closed, rmap_if. destruct (size pl =? 0)%nat; [reflexivity|].
  rewrite construct_sh at 1. rewrite bind_rmap, rmap_bind. apply bind_ext. intros ix.
  rewrite (mfold_sh shIx _ (fun ix i => let! v1 := vget pl i in let! v2 := vget pl (i + 1) in addAABB ix (createFastApproxBoundingBox v1 v2))).
  2:{ intros s i. rewrite !vget_im, bind_rmap, rmap_bind. apply bind_ext. intros a. rewrite bind_rmap, rmap_bind. apply bind_ext. intros b. now rewrite box_im, addAABB_sh. }
  rewrite bind_rmap, rmap_bind. apply bind_ext. intros ix2.
  match goal with |- bind ?a _ = rmap _ (bind ?b _) => assert (E : a = rmap shIx b) end.
  { rewrite rmap_if. destruct (isClosed pl); [|reflexivity]. rewrite last_im, vget_im, bind_rmap, rmap_bind. apply bind_ext. intros a. rewrite bind_rmap, rmap_bind. apply bind_ext. intros b. now rewrite box_im, addAABB_sh. }
  rewrite E, bind_rmap, rmap_bind. apply bind_ext. intros ix3. apply finish_sh.
Qed.

Lemma noOverlap_sh q b : noOverlap (shB q) (shB b) = noOverlap q b.
Proof. unfold noOverlap. cbn [shB bMinX bMinY bMaxX bMaxY]. now rewrite !xlt_sh. Qed.

Section Visit.
Context {St : Type} (g : St -> St) (vis' vis : St -> nat -> bool * St) (Hv : forall st i, vis' (g st) i = (fst (vis st i), g (snd (vis st i)))).
Lemma queryNode_sh ix q ni lv e k : forall p st stack, queryNode_loop k (shIx ix) (shB q) vis' ni lv e p (g st) stack =
  rmap (fun r => (fst (fst r), g (snd (fst r)), snd r)) (queryNode_loop k ix q vis ni lv e p st stack).
Proof.
  induction k as [|k IH]; intros p st stack; [reflexivity|]. cbn [queryNode_loop]. rewrite rmap_if. destruct (p <? e)%nat; [|reflexivity].
  change (m_indices (shIx ix)) with (m_indices ix). change (m_boxes (shIx ix)) with (shBs (m_boxes ix)). change (m_numItems (shIx ix)) with (m_numItems ix).
  rewrite rmap_bind. apply bind_ext. intros j. rewrite rgetI_sh, bind_rmap, rmap_bind. apply bind_ext. intros b. rewrite noOverlap_sh, rmap_if. destruct (noOverlap q b); [apply IH|].
  rewrite rmap_if. destruct (_ <? _)%nat; [|apply IH]. rewrite Hv. destruct (vis st j) as [go st']. cbn [fst snd]. rewrite rmap_if. destruct (negb go); [reflexivity|apply IH].
Qed.
Lemma query_sh n ix q fuel : forall ni lv st stack, query_loop fuel n (shIx ix) (shB q) vis' ni lv (g st) stack = rmap g (query_loop fuel n ix q vis ni lv st stack).
Proof.
  induction fuel as [|fuel IH]; intros ni lv st stack; [reflexivity|]. cbn [query_loop]. change (m_levelBounds (shIx ix)) with (m_levelBounds ix). rewrite rmap_bind. apply bind_ext. intros lb. cbv zeta.
  rewrite queryNode_sh, bind_rmap, rmap_bind. apply bind_ext. intros [[d st'] stack']. cbn [fst snd]. destruct stack' as [|l' [|n' s']]; [reflexivity|reflexivity|]. rewrite rmap_if. destruct d; [reflexivity|apply IH].
Qed.
Lemma visitQuery_sh n ix a b c d st : visitQuery n (shIx ix) (shX (vx v) a) (shX (vy v) b) (shX (vx v) c) (shX (vy v) d) vis' (g st) = rmap g (visitQuery n ix a b c d vis st).
Proof. exact (query_sh n ix (@mkBox ROrd a b c d) _ _ _ st []). Qed.
End Visit.

(** every query of the moved index with the moved box answers with the same items in the same order *)
Theorem C70_translate_query n ix x0 y0 x1 y1 rs :
  query n (shIx ix) (Fin (vx v + x0)) (Fin (vy v + y0)) (Fin (vx v + x1)) (Fin (vy v + y1)) rs = query n ix (Fin x0) (Fin y0) (Fin x1) (Fin y1) rs.
Proof.
  unfold query. pose proof (visitQuery_sh (fun x : list nat => x) (fun rs i => (true, rs ++ [i])) (fun rs i => (true, rs ++ [i])) (fun _ _ => eq_refl) n ix (Fin x0) (Fin y0) (Fin x1) (Fin y1) rs) as E.
  cbn [shX ext_map] in E. rewrite !Rmult_1_r in E. rewrite E. apply rmap_id.
Qed.

Lemma visitItems_sh {St} (g : St -> St) (vis' vis : St -> nat -> @box ROrd -> bool * St) ix :
  (forall st i b, vis' (g st) i (shB b) = (fst (vis st i b), g (snd (vis st i b)))) ->
  forall st, visitItemBoxes (shIx ix) vis' (g st) = rmap g (visitItemBoxes ix vis st).
Proof.
  intros Hv st. unfold visitItemBoxes. change (m_levelBounds (shIx ix)) with (m_levelBounds ix). change (m_numNodes (shIx ix)) with (m_numNodes ix). rewrite rmap_bind. apply bind_ext. intros e.
  generalize (S (m_numNodes ix)) as k, 0%nat as i. intros k. revert st. induction k as [|k IH]; intros st i; [reflexivity|]. cbn [visitItemBoxes_loop]. rewrite rmap_if. destruct (i <? e)%nat; [|reflexivity].
  change (m_indices (shIx ix)) with (m_indices ix). change (m_boxes (shIx ix)) with (shBs (m_boxes ix)). rewrite rmap_bind. apply bind_ext. intros j. rewrite rgetI_sh, bind_rmap, rmap_bind. apply bind_ext. intros b.
  rewrite Hv. destruct (vis st j b) as [go st']. cbn [fst snd]. rewrite rmap_if. destruct (negb go); [reflexivity|apply IH].
Qed.
End Index.
