(** * C70, continued: parallelOffset of a translated polyline *)
From Coq Require Import ZArith NArith Reals Lra Lia List Bool Arith.
From Verif Require Import Base Num MathUtils PlineSegment SpatialIndex Polyline Intersects RGeom Spec PropsMath ArcGeom PropsPolyline PropsPlineIndex PropsFindIntr PropsArea PropsRegion PropsSimilar PropsSimilarPairs PropsSimilarFind Combine Offset PropsSimilarOffset PropsSimilarIndex PropsSimilarSelf.
From Verif Require StdLaws.
Import ListNotations.
Open Scope R_scope.

(** the sort of the standard library looks at its elements only through the comparison, and the iteration order of an unordered map
    depends on its keys only *)
Definition oblivious (SL : StdLib) : Prop :=
  (forall (A B : Type) (f : A -> B) (c' : B -> B -> bool) (c : A -> A -> bool) l, (forall a b, c' (f a) (f b) = c a b) -> std_sort c' (map f l) = map f (std_sort c l)) /\
  (forall (A B : Type) (f : A -> B) (m : list (nat * A)), map_order (map (fun e => (fst e, f (snd e))) m) = map (fun e => (fst e, f (snd e))) (map_order m)).

Section Parallel.
Context {SL : StdLib}.
Variable Hob : oblivious SL.
Variable v : vec.
Local Notation im := (image 1 v).
Local Notation imw := (imv 1 v).
Local Notation J := (J v).
Local Notation sI := (shiftIntr v).
Local Notation sC := (shiftCIntr v).
Local Notation shIx := (shIx v).

Lemma index_im pl : createApproxSpatialIndex (J pl) = rmap shIx (createApproxSpatialIndex pl).
Proof. rewrite <- J_im, translate_image. apply C70_translate_index. Qed.
Lemma all_im n pl out ix : allSelfIntersects n (J pl) (map sI out) (shIx ix) = rmap (map sI) (allSelfIntersects n pl out ix).
Proof. rewrite <- J_im, translate_image. apply C70_translate_self_intersects. Qed.
Lemma find_im n pl1 pl2 ix a b : findIntersects n (J pl1) (J pl2) (shIx ix) (map sI a) (map sC b) = rmap (fun r => (map sI (fst r), map sC (snd r))) (findIntersects n pl1 pl2 ix a b).
Proof. rewrite <- !J_im, !translate_image. apply C70_translate_find_intersects. Qed.
Lemma raw_im pl o : createRawOffsetPline (J pl) o = rmap J (createRawOffsetPline pl o).
Proof. rewrite <- J_im, translate_image, C70_translate_raw_offset. apply bind_ext. intros r. now rewrite <- translate_image, J_im. Qed.

(** rectangles around a moved point *)
Lemma xs (p : vec) d : @inj ROps (vx (im p) - d) = shX (vx v) (@inj ROps (vx p - d)).
Proof. cbn [inj ROps shX ext_map image vx vy]. f_equal. ring. Qed.
Lemma ys (p : vec) d : @inj ROps (vy (im p) - d) = shX (vy v) (@inj ROps (vy p - d)).
Proof. cbn [inj ROps shX ext_map image vx vy]. f_equal. ring. Qed.
Lemma xa (p : vec) d : @inj ROps (vx (im p) + d) = shX (vx v) (@inj ROps (vx p + d)).
Proof. cbn [inj ROps shX ext_map image vx vy]. f_equal. ring. Qed.
Lemma ya (p : vec) d : @inj ROps (vy (im p) + d) = shX (vy v) (@inj ROps (vy p + d)).
Proof. cbn [inj ROps shX ext_map image vx vy]. f_equal. ring. Qed.

Lemma visit_id {St} (vis' vis : St -> nat -> bool * St) n ix a b c d st : (forall st i, vis' st i = vis st i) ->
  visitQuery n (shIx ix) (shX (vx v) a) (shX (vy v) b) (shX (vx v) c) (shX (vy v) d) vis' st = visitQuery n ix a b c d vis st.
Proof.
  intros H. rewrite (visitQuery_sh v (fun x : St => x) vis' vis (fun st i => eq_trans (H st i) (surjective_pairing _))). apply rmap_id.
Qed.
Lemma query_id n ix a b c d rs : query n (shIx ix) (shX (vx v) a) (shX (vy v) b) (shX (vx v) c) (shX (vy v) d) rs = query n ix a b c d rs.
Proof. apply visit_id. reflexivity. Qed.

Lemma valid_im n pl o ix p : pointValidForOffset n (J pl) o (shIx ix) (im p) = pointValidForOffset n pl o ix p.
Proof.
  unfold pointValidForOffset. cbv zeta. change (@tsub ROps) with Rminus. change (@tadd ROps) with Rplus. rewrite xs, ys, xa, ya. f_equal. apply visit_id. intros st i.
  match goal with |- (match ?a with _ => _ end, _) = (match ?b with _ => _ end, _) => assert (E : a = b) end.
  { rewrite J_size, !vget_im, bind_rmap. apply bind_ext. intros a. rewrite bind_rmap. apply bind_ext. intros b. now rewrite closestSeg_im1, dist_im1. }
  now rewrite E.
Qed.
Lemma hits_im n pl ix a b : intersectsOrigPline n (J pl) (shIx ix) (imw a) (imw b) = intersectsOrigPline n pl ix a b.
Proof.
  unfold intersectsOrigPline. cbv zeta. rewrite box_im. set (bb := createFastApproxBoundingBox a b). f_equal. apply (visit_id _ _ n ix (Fin (xMin bb)) (Fin (yMin bb)) (Fin (xMax bb)) (Fin (yMax bb))). intros st i.
  match goal with |- (match ?a with _ => _ end, _) = (match ?b with _ => _ end, _) => assert (E : a = b) end.
  { rewrite J_size, !vget_im, bind_rmap. apply bind_ext. intros x. rewrite bind_rmap. apply bind_ext. intros y. rewrite C70_translate_segments. now destruct (intrPlineSegs _ _ _ _). }
  now rewrite E.
Qed.

Definition shO (s : openSlice) : openSlice := mkOSl (intrStartIndex s) (J (slPline s)).
Definition shM (m : vlookup) : vlookup := map (fun e => (fst e, map im (snd e))) m.
Lemma shM_len m : length (shM m) = length m. Proof. apply map_length. Qed.
Lemma split_u a b p : updatedStart (splitAtPoint (imw a) (imw b) (im p)) = imw (updatedStart (splitAtPoint a b p)).
Proof. now rewrite split_im. Qed.
Lemma split_s a b p : splitVertex (splitAtPoint (imw a) (imw b) (im p)) = imw (splitVertex (splitAtPoint a b p)).
Proof. now rewrite split_im. Qed.

Lemma sortV_im pl m : sortVLookup (J pl) (shM m) = rmap shM (sortVLookup pl m).
Proof.
  unfold sortVLookup, shM. induction m as [|[k l] m IH]; [reflexivity|]. cbn [map mmap fst snd]. rewrite vget_im, IH. destruct (vget pl k) as [w| |]; [|reflexivity|reflexivity]. cbn [rmap bind].
  destruct (mmap _ m) as [m'| |]; [|reflexivity|reflexivity]. cbn [rmap bind map fst snd]. do 3 f_equal.
  apply (proj1 Hob). intros a b. now rewrite pos_im, !dist_im1.
Qed.
Lemma mfind_im k m : mfind k (shM m) = option_map (map im) (mfind k m).
Proof. induction m as [|[k' l] m IH]; [reflexivity|]. cbn [shM map mfind fst snd]. destruct (k =? k')%nat; [reflexivity|exact IH]. Qed.
Lemma mpush_im k p m : mpush k (im p) (shM m) = shM (mpush k p m).
Proof. induction m as [|[k' l] m IH]; [reflexivity|]. cbn [shM map mpush fst snd]. destruct (k =? k')%nat; cbn [map fst snd]; [now rewrite map_app|]. f_equal. exact IH. Qed.
Lemma mpushS_im k p m : mpushSorted k (im p) (shM m) = shM (mpushSorted k p m).
Proof.
  induction m as [|[k' l] m IH]; [reflexivity|]. cbn [shM map mpushSorted fst snd]. destruct (k =? k')%nat; cbn [map fst snd]; [now rewrite map_app|]. destruct (k <? k')%nat; [reflexivity|]. cbn [map fst snd]. f_equal. exact IH.
Qed.
Lemma fold_im {A} (h : A -> A) (f' f : vlookup -> A -> vlookup) l : (forall m a, f' (shM m) (h a) = shM (f m a)) -> forall m, fold_left f' (map h l) (shM m) = shM (fold_left f l m).
Proof. intros H. induction l as [|a l IH]; intros m; [reflexivity|]. cbn [map fold_left]. now rewrite H, IH. Qed.
Lemma mfold_im {A S} (g : S -> S) (h : A -> A) (f' f : S -> A -> res S) l : (forall s a, f' (g s) (h a) = rmap g (f s a)) -> forall s, mfold f' (map h l) (g s) = rmap g (mfold f l s).
Proof. intros H. induction l as [|a l IH]; intros s; [reflexivity|]. cbn [map mfold]. rewrite H, bind_rmap, rmap_bind. apply bind_ext. intros s'. apply IH. Qed.

Section Tests.
Context (ts' ts : tests) (Hp : forall p, ptValid ts' (im p) = ptValid ts p) (Hh : forall a b, hitsOrig ts' (imw a) (imw b) = hitsOrig ts a b).

Lemma mid_im i e rest : forall pv r, midOffsetSlices ts' i (imw e) (imw pv) (map im rest) (map shO r) = rmap (map shO) (midOffsetSlices ts i e pv rest r).
Proof.
  induction rest as [|p rest IH]; intros pv r; [reflexivity|]. cbn [map midOffsetSlices]. cbv zeta. rewrite split_u, split_s, !pos_im, fuzzy_im, segMidpoint_im, !Hp, Hh, rmap_bind.
  apply bind_ext. intros keep. rewrite <- IH. f_equal. destruct keep; [|reflexivity]. now rewrite map_app.
Qed.

Definition gB (r : bool * polyline) : bool * polyline := (fst r, J (snd r)).
Lemma rget_im l i : rget (map im l) i = rmap im (rget l i).
Proof. unfold rget. rewrite nth_error_map. now destruct (nth_error l i). Qed.

Lemma loop_im raw w m fuel : forall c i, offsetSliceLoop fuel ts' (J raw) w (shM m) (J c) i = rmap gB (offsetSliceLoop fuel ts raw w m c i).
Proof.
  induction fuel as [|fuel IH]; intros c i; [reflexivity|]. cbn [offsetSliceLoop]. rewrite J_size, !vget_im, bind_rmap, rmap_bind. apply bind_ext. intros x. rewrite pos_im, Hp, rmap_bind. apply bind_ext. intros ok.
  rewrite rmap_if. destruct (negb ok); [reflexivity|]. rewrite last_im, bind_rmap, rmap_bind. apply bind_ext. intros lv. rewrite Hh, rmap_bind. apply bind_ext. intros h. rewrite rmap_if. destruct h; [reflexivity|].
  cbv zeta. rewrite add_im, mfind_im. destruct (mfind i m) as [l|]; cbn [option_map].
  - rewrite rget_im, bind_rmap, rmap_bind. apply bind_ext. intros p. rewrite Hp, rmap_bind. apply bind_ext. intros ok2. rewrite rmap_if. destruct (negb ok2); [reflexivity|].
    rewrite bind_rmap, rmap_bind. apply bind_ext. intros nv. rewrite last_im, bind_rmap, rmap_bind. apply bind_ext. intros lv2. rewrite split_u, mk_im, segMidpoint_im, Hp, rmap_bind. apply bind_ext. intros ok3.
    rewrite rmap_if. destruct (negb ok3); [reflexivity|]. rewrite setLast_im, bind_rmap, rmap_bind. apply bind_ext. intros c2. now rewrite add_im.
  - rewrite !rmap_if. destruct (_ =? _)%nat; [|apply IH]. destruct w; [apply IH|reflexivity].
Qed.

Lemma length_im1 c : getPathLength (J c) = getPathLength c.
Proof. rewrite <- J_im, translate_image. apply C70_translate_length. Qed.
Lemma lastp_im l p : last (map im l) (im p) = im (last l p). Proof. apply last_map. Qed.

Lemma one_im raw w sc m r e : offsetSliceOne ts' (J raw) w sc (shM m) (map shO r) (fst e, map im (snd e)) = rmap (map shO) (offsetSliceOne ts raw w sc m r e).
Proof.
  destruct e as [i l]. unfold offsetSliceOne. cbn [fst snd]. rewrite J_size, !vget_im, bind_rmap, rmap_bind. apply bind_ext. intros sv. cbv zeta. rewrite bind_rmap, rmap_bind. apply bind_ext. intros ev.
  destruct l as [|p0 rest]; [reflexivity|]. cbn [map]. rewrite split_s, mid_im. cbn [length]. rewrite map_length, lastp_im.
  match goal with |- bind ?a _ = rmap _ (bind ?b _) => assert (E : a = rmap (map shO) b) end.
  { rewrite rmap_if. destruct (negb _); reflexivity. }
  rewrite E, bind_rmap, rmap_bind. apply bind_ext. intros r1. rewrite Hp, rmap_bind. apply bind_ext. intros ok. rewrite rmap_if. destruct (negb ok); [reflexivity|].
  rewrite split_s. change (mkPline false [imw (splitVertex (splitAtPoint sv ev (last rest p0)))]) with (J (mkPline false [splitVertex (splitAtPoint sv ev (last rest p0))])).
  rewrite loop_im, bind_rmap, rmap_bind. apply bind_ext. intros [vd c]. cbn [gB fst snd]. rewrite J_size, rmap_bind.
  match goal with |- bind ?a _ = bind ?b _ => assert (E2 : a = b) end.
  { destruct (_ && sc)%bool; [|reflexivity]. rewrite vget_im, last_im, bind_rmap. apply bind_ext. intros a. rewrite bind_rmap. apply bind_ext. intros b. now rewrite !pos_im, fuzzy_im, length_im1. }
  rewrite E2. apply bind_ext. intros [|]; [|reflexivity]. rewrite rmap_Ok, map_app. reflexivity.
Qed.

Lemma first_im raw m fuel : forall c i, firstSliceLoop fuel ts' (J raw) (shM m) (J c) i = rmap (map shO) (firstSliceLoop fuel ts raw m c i).
Proof.
  induction fuel as [|fuel IH]; intros c i; [reflexivity|]. cbn [firstSliceLoop]. rewrite mfind_im. destruct (mfind i m) as [l|]; cbn [option_map].
  - rewrite rget_im, bind_rmap, rmap_bind. apply bind_ext. intros p. rewrite Hp, rmap_bind. apply bind_ext. intros ok. rewrite rmap_if. destruct (negb ok); [reflexivity|].
    rewrite !vget_im, bind_rmap, rmap_bind. apply bind_ext. intros x. rewrite bind_rmap, rmap_bind. apply bind_ext. intros nv. cbv zeta. rewrite split_u, mk_im, segMidpoint_im, Hp, rmap_bind. apply bind_ext. intros ok2.
    rewrite rmap_if. destruct (negb ok2); [reflexivity|]. rewrite Hh, rmap_bind. apply bind_ext. intros h. rewrite rmap_if. destruct h; [reflexivity|]. rewrite !add_im. reflexivity.
  - rewrite vget_im, bind_rmap, rmap_bind. apply bind_ext. intros x. rewrite pos_im, Hp, rmap_bind. apply bind_ext. intros ok. rewrite rmap_if. destruct (negb ok); [reflexivity|]. rewrite rmap_bind.
    match goal with |- bind ?a _ = bind ?b _ => assert (E : a = b) end.
    { destruct (negb _); [|reflexivity]. rewrite last_im, bind_rmap. apply bind_ext. intros lv. apply Hh. }
    rewrite E. apply bind_ext. intros h. rewrite rmap_if. destruct h; [reflexivity|]. rewrite add_im. apply IH.
Qed.
End Tests.

Lemma whole_im raw b : wholeRaw (J raw) b = rmap (map shO) (wholeRaw raw b).
Proof.
  unfold wholeRaw. rewrite vget_im, bind_rmap, rmap_bind. apply bind_ext. intros r0. rewrite setBulge_im, rmap_Ok. cbn [map]. unfold shO. cbn [intrStartIndex slPline]. unfold J. cbn [isClosed vertexes]. rewrite map_app. now destruct b.
Qed.

Lemma slices_im orig raw o : slicesFromRawOffset (J orig) (J raw) o = rmap (map shO) (slicesFromRawOffset orig raw o).
Proof.
  unfold slicesFromRawOffset. rewrite J_size, rmap_if. destruct (_ <? 2)%nat; [reflexivity|]. rewrite index_im, bind_rmap, rmap_bind. apply bind_ext. intros ix. rewrite index_im, bind_rmap, rmap_bind. apply bind_ext. intros rx.
  change (@nil pIntr) with (map sI []) at 1. rewrite all_im, bind_rmap, rmap_bind. apply bind_ext. intros self. cbv zeta. rewrite map_length, rmap_if. cbn [mkOrigTests ptValid hitsOrig]. destruct (_ =? 0)%nat.
  - rewrite vget_im, bind_rmap, rmap_bind. apply bind_ext. intros r0. rewrite pos_im, valid_im, rmap_bind. apply bind_ext. intros ok. rewrite rmap_if, whole_im. now destruct (negb ok).
  - change (@nil (nat * list vec)) with (shM []) at 1.
    rewrite (fold_im sI _ (fun m si => mpush (sIndex2 si) (ipos si) (mpush (sIndex1 si) (ipos si) m))) by (intros m a; rewrite ipos_im, !mpush_im; reflexivity).
    rewrite sortV_im, bind_rmap, rmap_bind. apply bind_ext. intros m. unfold shM at 2. rewrite (proj2 Hob). change (@nil openSlice) with (map shO []) at 1.
    apply mfold_im. intros s a. apply one_im; intros; [apply valid_im|apply hits_im].
Qed.

Definition shC (e : nat * vec) : nat * vec := (fst e, im (snd e)).
Lemma circ1_im pl r c out i : circleIntrSeg (J pl) r (im c) (map shC out) i = rmap (map shC) (circleIntrSeg pl r c out i).
Proof.
  unfold circleIntrSeg. rewrite !vget_im. do 2 (rewrite bind_rmap, rmap_bind; apply bind_ext; intros ?). rewrite zero_im, !pos_im, bulge_im, line_circle_im, rmap_if. cbv zeta. destruct (bulgeIsZero x).
  - destruct (intrLineSeg2Circle2 _ _ _ _) as [|r0|r0 r1]; [reflexivity| |]; rewrite rmap_Ok, !map_app, !param_im; do 2 f_equal.
    + now destruct (_ && _)%bool.
    + f_equal; now destruct (_ && _)%bool.
  - rewrite rad_im, cen_im, circle_circle_im. destruct (intrCircle2Circle2 _ _ _ _) as [|p|p q|]; cbn [imCC]; [reflexivity| | |reflexivity]; rewrite rmap_Ok, !map_app, !fuzzy_im, !sweep_im; do 2 f_equal.
    + now destruct (_ && _)%bool.
    + f_equal; now destruct (_ && _)%bool.
Qed.
Lemma circ_im pl o c ix out : offsetCircleIntersectsWithPline (J pl) o (im c) (shIx ix) (map shC out) = rmap (map shC) (offsetCircleIntersectsWithPline pl o c ix out).
Proof.
  unfold offsetCircleIntersectsWithPline. cbv zeta. change (@tsub ROps) with Rminus. change (@tadd ROps) with Rplus. rewrite xs, ys, xa, ya, query_id, rmap_bind. apply bind_ext. intros q. apply (mfold_sh (map shC)). intros; apply circ1_im.
Qed.

Lemma dual_im orig raw dual o : dualSliceAtIntersectsForOffset (J orig) (J raw) (J dual) o = rmap (map shO) (dualSliceAtIntersectsForOffset orig raw dual o).
Proof.
  unfold dualSliceAtIntersectsForOffset. rewrite J_size, rmap_if. destruct (_ <? 2)%nat; [reflexivity|]. rewrite index_im, bind_rmap, rmap_bind. apply bind_ext. intros ix. rewrite index_im, bind_rmap, rmap_bind. apply bind_ext. intros rx.
  change (@nil pIntr) with (map sI []) at 1. rewrite all_im, bind_rmap, rmap_bind. apply bind_ext. intros self.
  change (@nil pIntr) with (map sI []) at 1. change (@nil cIntr) with (map sC []) at 1. rewrite find_im, bind_rmap, rmap_bind. apply bind_ext. intros [di dc]. cbn [fst snd]. rewrite J_closed.
  match goal with |- bind ?a _ = rmap _ (bind ?b _) => assert (E : a = rmap (map shC) b) end.
  { rewrite rmap_if. destruct (negb _); [|reflexivity]. rewrite vget_im, last_im, bind_rmap, rmap_bind. apply bind_ext. intros f. rewrite bind_rmap, rmap_bind. apply bind_ext. intros l. rewrite !pos_im.
    change (@nil (nat * vec)) with (map shC []) at 1. rewrite circ_im, bind_rmap, rmap_bind. apply bind_ext. intros out. apply circ_im. }
  rewrite E, bind_rmap, rmap_bind. apply bind_ext. intros circ. cbv zeta.
  match goal with |- context [length (fold_left ?f (map sC dc) ?m)] => match goal with |- context [length (fold_left ?g dc ?k)] =>
    assert (EM : fold_left f (map sC dc) m = shM (fold_left g dc k)) end end.
  { change (@nil (nat * list vec)) with (shM []) at 1.
    rewrite (fold_im shC _ (fun m '(k, p) => mpushSorted k p m)) by (intros m [k p]; apply mpushS_im).
    rewrite (fold_im sI _ (fun m si => mpushSorted (sIndex2 si) (ipos si) (mpushSorted (sIndex1 si) (ipos si) m))) by (intros m a; rewrite ipos_im, !mpushS_im; reflexivity).
    rewrite (fold_im sI _ (fun m si => mpushSorted (sIndex1 si) (ipos si) m)) by (intros m a; rewrite ipos_im, !mpushS_im; reflexivity).
    rewrite (fold_im sC _ (fun m ci => mpushSorted (cIndex1 ci) (cpoint2 ci) (mpushSorted (cIndex1 ci) (cpoint1 ci) m))) by (intros m a; unfold shiftCIntr; cbn [cIndex1 cpoint1 cpoint2]; rewrite <- !shift_image, !mpushS_im; reflexivity).
    reflexivity. }
  rewrite !EM. clear EM. match goal with |- context [shM (fold_left ?f dc ?m)] => generalize (fold_left f dc m) as M end. intros M. rewrite shM_len, rmap_if. cbn [mkOrigTests ptValid hitsOrig]. destruct (_ =? 0)%nat.
  - rewrite vget_im, bind_rmap, rmap_bind. apply bind_ext. intros r0. rewrite pos_im, valid_im, rmap_bind. apply bind_ext. intros ok. rewrite rmap_if, whole_im. now destruct (negb ok).
  - rewrite sortV_im, bind_rmap, rmap_bind. apply bind_ext. intros m.
    match goal with |- bind ?a _ = rmap _ (bind ?b _) => assert (E2 : a = rmap (map shO) b) end.
    { rewrite rmap_if. destruct (negb _); [|reflexivity]. change emptyPline with (J emptyPline) at 1. apply first_im; intros; [apply valid_im|apply hits_im]. }
    rewrite E2, bind_rmap, rmap_bind. apply bind_ext. intros f. unfold shM at 2. apply mfold_im. intros s a. apply one_im; intros; [apply valid_im|apply hits_im].
Qed.

Lemma rget_map {A B} (g : A -> B) l i : rget (map g l) i = rmap g (rget l i).
Proof. unfold rget. rewrite nth_error_map. now destruct (nth_error l i). Qed.

Lemma stitchIndex_im l d : stitchIndex (map J l) d = rmap shIx (stitchIndex l d).
Proof.
  unfold stitchIndex. rewrite map_length. rewrite construct_sh at 1. rewrite bind_rmap, rmap_bind. apply bind_ext. intros ix.
  match goal with |- bind ?a _ = rmap _ (bind ?b _) => assert (E : a = rmap shIx b) end.
  { apply mfold_im. intros s a. rewrite vget_im, bind_rmap, rmap_bind. apply bind_ext. intros w. unfold px, py. rewrite pos_im. change (@tsub ROps) with Rminus. change (@tadd ROps) with Rplus. rewrite xs, ys, xa, ya. apply add_sh. }
  rewrite E, bind_rmap, rmap_bind. apply bind_ext. intros ix2. apply finish_sh.
Qed.
Lemma stitchIndex_ne l d ix : stitchIndex l d = Ok ix -> forall s, In s l -> vertexes s <> [].
Proof.
  unfold stitchIndex. destruct (construct _ _) as [ix0| |]; cbn [bind]; [|discriminate|discriminate]. revert ix0. generalize (finish defaultNodeSize) as F. intros F.
  induction l as [|a l IH]; intros ix0 H s; [intros []|]. cbn [mfold] in H. destruct (vget a 0) as [w| |] eqn:E; cbn [bind] in H; [|discriminate|discriminate].
  destruct (add _ _ _ _ _) as [ix1| |]; cbn [bind] in H; [|discriminate|discriminate]. intros [<-|Hs]; [|eapply IH; eauto].
  intros Z. unfold vget, rget in E. rewrite Z in E. discriminate.
Qed.

Section Stitch.
Context (slices : list openSlice) (Hne : forall s, In s slices -> vertexes (slPline s) <> []).
Lemma cmp_im k c p i j : stitchCmp (map shO slices) k c (im p) i j = stitchCmp slices k c p i j.
Proof.
  unfold stitchCmp. assert (D : forall i, (match nth_error (map shO slices) i with Some s => (indexDist k c (intrStartIndex s), fuzzyEqual (pos (last (vertexes (slPline s)) vdflt)) (im p) realPrecision) | None => (0%nat, false) end) =
    (match nth_error slices i with Some s => (indexDist k c (intrStartIndex s), fuzzyEqual (pos (last (vertexes (slPline s)) vdflt)) p realPrecision) | None => (0%nat, false) end)).
  { intros n. rewrite nth_error_map. destruct (nth_error slices n) as [s|] eqn:E; [|reflexivity]. cbn [option_map shO intrStartIndex slPline]. f_equal.
    apply nth_error_In, Hne in E. rewrite <- (fuzzy_im v (pos (last (vertexes (slPline s)) vdflt)) p). f_equal. rewrite J_vs. rewrite (last_default (map imw (vertexes (slPline s))) vdflt (imw vdflt)) by (destruct (vertexes (slPline s)); [congruence|discriminate]). now rewrite last_map. }
  cbv zeta. now rewrite !D.
Qed.

Definition gP (r : list bool * list polyline) : list bool * list polyline := (fst r, map J (snd r)).
Lemma stitchLoop_im cl k d ix ini fuel : forall vis r c i,
  stitchOffsetLoop fuel (map shO slices) cl k d (shIx ix) (im ini) vis (map J r) (map imw c) i = rmap gP (stitchOffsetLoop fuel slices cl k d ix ini vis r c i).
Proof.
  induction fuel as [|fuel IH]; intros vis r c i; [reflexivity|]. cbn [stitchOffsetLoop]. rewrite rget_map, bind_rmap, rmap_bind. apply bind_ext. intros s. cbn [shO slPline intrStartIndex]. rewrite last_im, bind_rmap, rmap_bind. apply bind_ext. intros ev.
  cbv zeta. unfold px, py. rewrite pos_im. change (@tsub ROps) with Rminus. change (@tadd ROps) with Rplus. rewrite xs, ys, xa, ya, query_id, rmap_bind. apply bind_ext. intros q. rewrite rmap_bind. apply bind_ext. intros q2.
  rewrite J_vs, <- map_app.
  assert (Es : std_sort (stitchCmp (map shO slices) k (intrStartIndex s) (im ini)) q2 = std_sort (stitchCmp slices k (intrStartIndex s) ini) q2).
  { pose proof (proj1 Hob nat nat (fun x => x) (stitchCmp (map shO slices) k (intrStartIndex s) (im ini)) (stitchCmp slices k (intrStartIndex s) ini) q2 (cmp_im k _ ini)) as E. rewrite !map_id in E. exact E. }
  rewrite Es. clear Es. generalize (std_sort (stitchCmp slices k (intrStartIndex s) ini) q2) as Q. intros [|nxt t].
  - rewrite map_length, rmap_if. destruct (1 <? _)%nat; [|reflexivity]. rewrite rget_map, bind_rmap, rmap_bind. apply bind_ext. intros a. rewrite mkJ, last_im, bind_rmap, rmap_bind. apply bind_ext. intros b.
    rewrite !pos_im, fuzzy_im. destruct (cl && _)%bool; unfold gP, rmap; cbn [bind fst snd]; rewrite (map_app J r); [rewrite removelast_map|]; reflexivity.
  - rewrite rmap_bind. apply bind_ext. intros vis2. rewrite removelast_map. apply IH.
Qed.
Lemma stitchFrom_im cl k d ix st i : stitchOffsetFrom (map shO slices) cl k d (shIx ix) (gP st) i = rmap gP (stitchOffsetFrom slices cl k d ix st i).
Proof.
  destruct st as [vis r]. unfold stitchOffsetFrom. cbn [gP fst snd]. rewrite rmap_bind. apply bind_ext. intros b. rewrite rmap_if. destruct b; [reflexivity|]. rewrite rmap_bind. apply bind_ext. intros vis2.
  rewrite rget_map, bind_rmap, rmap_bind. apply bind_ext. intros s. cbn [shO slPline]. rewrite vget_im, bind_rmap, rmap_bind. apply bind_ext. intros v0. rewrite pos_im, map_length. exact (stitchLoop_im cl k d ix (pos v0) _ vis2 r [] i).
Qed.
End Stitch.

Lemma stitch_im slices cl k d : stitchOffsetSlicesTogether (map shO slices) cl k d = rmap (map J) (stitchOffsetSlicesTogether slices cl k d).
Proof.
  destruct slices as [|s0 [|s1 rest]]; [reflexivity| |].
  - cbn [map stitchOffsetSlicesTogether shO slPline]. rewrite rmap_if. destruct cl; [|reflexivity]. rewrite vget_im, last_im, bind_rmap, rmap_bind. apply bind_ext. intros a. rewrite bind_rmap, rmap_bind. apply bind_ext. intros b.
    rewrite !pos_im, fuzzy_im, rmap_if. destruct (fuzzyEqual _ _ _); [|reflexivity]. rewrite pop_im, bind_rmap, rmap_bind. apply bind_ext. intros p. reflexivity.
  - set (sl := s0 :: s1 :: rest).
    assert (E : forall l, l = sl -> stitchOffsetSlicesTogether l cl k d = let! ix := stitchIndex (map slPline l) d in
      let! (_, result) := mfold (stitchOffsetFrom l cl k d ix) (seq 0 (length l)) (repeat false (length l), []) in Ok result) by (intros l ->; reflexivity).
    rewrite (E sl eq_refl). change (stitchOffsetSlicesTogether (map shO sl) cl k d) with (let! ix := stitchIndex (map slPline (map shO sl)) d in
      let! (_, result) := mfold (stitchOffsetFrom (map shO sl) cl k d ix) (seq 0 (length (map shO sl))) (repeat false (length (map shO sl)), []) in Ok result).
    assert (Em : map slPline (map shO sl) = map J (map slPline sl)) by (rewrite !map_map; reflexivity).
    rewrite Em, stitchIndex_im, map_length. clear E Em. destruct (stitchIndex (map slPline sl) d) as [ix| |] eqn:E; [|reflexivity|reflexivity]. cbn [rmap bind].
    assert (Hne : forall s, In s sl -> vertexes (slPline s) <> []) by (intros s Hs; eapply stitchIndex_ne; [exact E|now apply in_map]).
    change (repeat false (length sl), @nil polyline) with (gP (repeat false (length sl), [])) at 1.
    rewrite (mfold_sh gP _ (stitchOffsetFrom sl cl k d ix)) by (intros; now apply stitchFrom_im). rewrite bind_rmap. destruct (mfold _ _ _) as [[vs r]| |]; reflexivity.
Qed.

(** offsetting commutes with translation: the same polylines, vertex by vertex and in the same order, moved *)
Theorem C70_translate_offset pl o b : parallelOffset (translatePolyline pl v) o b =
  let! r := parallelOffset pl o b in Ok (map (fun q => translatePolyline q v) r).
Proof.
  transitivity (rmap (map J) (parallelOffset pl o b)).
  2:{ unfold rmap. apply bind_ext. intros r. f_equal. apply map_ext. intros q. now rewrite <- translate_image, J_im. }
  rewrite <- translate_image, J_im. unfold parallelOffset. rewrite J_size, J_closed, rmap_if. destruct (size pl <? 2)%nat; [reflexivity|]. rewrite raw_im, bind_rmap, rmap_bind. apply bind_ext. intros raw. rewrite rmap_if.
  destruct (_ && _)%bool.
  - rewrite slices_im, bind_rmap, rmap_bind. apply bind_ext. intros sl. rewrite J_size. apply stitch_im.
  - rewrite raw_im, bind_rmap, rmap_bind. apply bind_ext. intros dl. rewrite dual_im, bind_rmap, rmap_bind. apply bind_ext. intros sl. rewrite J_size. apply stitch_im.
Qed.
End Parallel.

(** the assumption about the standard library holds for insertion sort and insertion order *)
Example C70_oblivious : oblivious StdLaws.InsertionStd.
Proof.
  split.
  - intros A B f c' c l H. cbn [std_sort StdLaws.InsertionStd]. induction l as [|x l IH]; [reflexivity|]. cbn [map fold_right]. rewrite IH. generalize (fold_right (StdLaws.insert c) [] l) as m. clear -H. intros m.
    induction m as [|y m IH]; [reflexivity|]. cbn [map StdLaws.insert]. rewrite H. destruct (c y x); [cbn [map]; now rewrite IH|reflexivity].
  - reflexivity.
Qed.
