(** * C69: ParallelOffsetIslands::compute returns for every input - no out of range access, no loop guard, no bad cast *)
From Coq Require Import ZArith Reals Lra Lia List Bool Arith Permutation Sorted.
From Coquelicot Require Import Coquelicot.
From Verif Require Import Base Num MathUtils PlineSegment SpatialIndex IndexSort IndexTree IndexQuery PropsIndex Polyline Intersects Combine Offset Islands StdLaws RGeom Spec PropsMath ArcGeom Polar PropsSegment PropsClosest PropsIntr PropsPlineIntr PropsPolyline PropsArea Turning PropsWinding PropsRegion PropsPlineIndex PropsExtents PropsFindIntr PropsCoincident PropsSlices PropsStitch PropsCombine PropsPieces PropsTrace PropsBoolOps PropsOffset PropsOffsetSlices PropsRawOffset PropsParallelTotal PropsOffsetRuns PropsOffsetCuts PropsIslands PropsIslandSlices PropsIslandCuts.
Import ListNotations.
Open Scope R_scope.

(** ** A polyline that encloses an area can be indexed *)
Lemma area_scaled pl c f : isClosed pl = true -> (forall v1 v2, In (v1, v2) (pathSegs pl) -> areaOf (seg3 (v1, v2)) = c * (f v2 - f v1)) -> getArea pl = 0.
Proof.
  intros Hc H. rewrite getArea_sum by auto. unfold trace. rewrite map_map.
  assert (E : sumR (map (fun e => areaOf (seg3 e)) (pathSegs pl)) = c * sumR (map (fun e : vertex * vertex => f (snd e) - f (fst e)) (pathSegs pl))).
  { clear Hc. induction (pathSegs pl) as [|[v1 v2] l IH]; [cbn; unfold sumR; cbn; lra|]. cbn [map]. rewrite !sumR_cons, IH by (intros; apply H; now right). rewrite (H v1 v2) by now left. cbn [fst snd]. lra. }
  rewrite E, closed_telescope by auto. lra.
Qed.

Lemma areaOf_line v1 v2 : (bulgeIsZero v1 = true \/ (px v1 = px v2 /\ py v1 = py v2)) -> areaOf (seg3 (v1, v2)) = px v1 * py v2 - py v1 * px v2.
Proof.
  intros H. unfold areaOf, seg3, area_step, at_. cbn [fst snd nth vertexes]. replace (bulgeIsZero (mkVtx (pos v1) (bulge v1))) with (bulgeIsZero v1) by (destruct v1; reflexivity).
  unfold px, py. cbn [pos bulge]. rcbn. destruct (bulgeIsZero v1) eqn:E; cbn [negb]; [ring|]. destruct H as [H|[Hx Hy]]; [discriminate|]. unfold px, py in Hx, Hy.
  assert (E0 : vlength (vsub (pos v2) (pos v1)) = 0).
  { unfold vlength, dot, vsub. cbn [vx vy]. rcbn. rewrite Hx, Hy. replace ((vx (pos v2) - vx (pos v2)) * (vx (pos v2) - vx (pos v2)) + (vy (pos v2) - vy (pos v2)) * (vy (pos v2) - vy (pos v2))) with 0 by ring. apply sqrt_0. }
  rewrite E0. destruct (bulgeIsNeg _); unfold Rdiv; ring.
Qed.

(** a box without width: the segment is a vertical line or a point *)
Lemma box_thin v1 v2 : let b := createFastApproxBoundingBox v1 v2 in
  (xMax b <= xMin b -> px v1 = px v2 /\ (bulgeIsZero v1 = true \/ py v1 = py v2)) /\ (yMax b <= yMin b -> py v1 = py v2 /\ (bulgeIsZero v1 = true \/ px v1 = px v2)).
Proof.
  intros b. destruct (sbox_ends v1 v2) as [[A1 A2] [A3 A4]]. fold b in A1, A2, A3, A4. assert (G : bulgeIsZero v1 = true \/
    (xMin b <= px v1 + bulge v1 * (py v2 - py v1) / 2 <= xMax b /\ yMin b <= py v1 + - bulge v1 * (px v2 - px v1) / 2 <= yMax b)).
  { destruct (bulgeIsZero v1) eqn:E; [now left|right]. unfold b, createFastApproxBoundingBox. rcbn. rewrite E.
    pose proof (ordered_pair (px v1) (px v2)) as (exMin & exMax & -> & _ & _). pose proof (ordered_pair (py v1) (py v2)) as (eyMin & eyMax & -> & _ & _).
    match goal with |- context [let '(_, _) := (if Rltb ?u ?w then _ else _) in _] => pose proof (ordered_pair u w) as (a1 & a2 & -> & P1 & P2) end.
    match goal with |- context [let '(_, _) := (if Rltb ?u ?w then _ else _) in _] => pose proof (ordered_pair u w) as (a3 & a4 & -> & P3 & P4) end.
    cbn [xMin yMin xMax yMax]. pose proof (tmin_le exMin a1). pose proof (tmin_le eyMin a3). pose proof (tmax_ge exMax a2). pose proof (tmax_ge eyMax a4). lra. }
  assert (Z0 : bulge v1 = 0 -> bulgeIsZero v1 = true). { intros E. unfold bulgeIsZero. rewrite E. rcbn. apply Rltb_spec. rewrite Rabs_R0. lra. }
  split; intros Ht; (split; [lra|]); (destruct G as [G|[G1 G2]]; [now left|]).
  - assert (E : bulge v1 * (py v2 - py v1) = 0) by lra. apply Rmult_integral in E. destruct E as [E|E]; [left; auto|right; lra].
  - assert (E : - bulge v1 * (px v2 - px v1) = 0) by lra. apply Rmult_integral in E. destruct E as [E|E]; [left; apply Z0; lra|right; lra].
Qed.

Lemma area_index pl : closedPline pl -> (Z.of_nat (length (vertexes pl)) <= 2 ^ 24)%Z -> getArea pl <> 0 -> exists ix, createApproxSpatialIndex pl = Ok ix.
Proof.
  intros [Hc Hn] Hz Ha. rewrite (create_build pl Hn). set (bs := map (fun i => toBox (sbox pl i)) (seq 0 (segCount pl))).
  assert (Hsc : segCount pl = length (vertexes pl)) by (rewrite (segCount_eq pl Hn), Hc; reflexivity).
  assert (Hlen : length bs = length (vertexes pl)) by (unfold bs; now rewrite map_length, seq_length).
  assert (Sg : forall v1 v2, In (v1, v2) (pathSegs pl) -> exists i, (i < length (vertexes pl))%nat /\ v1 = at_ pl i /\ v2 = at_ pl (nextI pl i)).
  { intros v1 v2 H. destruct (at_seg pl v1 v2 Hc H) as (k & Hk & -> & ->). exists k. split; [exact Hk|]. destruct (seg_at pl k Hc Hn Hk) as (A & B & _). auto. }
  assert (Bx : forall i, (i < length (vertexes pl))%nat -> In (toBox (sbox pl i)) bs) by (intros i Hi; unfold bs; apply in_map_iff; exists i; split; [auto|apply in_seq; lia]).
  assert (Inb : forall b, In b bs -> exists i, (i < length (vertexes pl))%nat /\ b = toBox (sbox pl i)).
  { intros b Hb. unfold bs in Hb. apply in_map_iff in Hb. destruct Hb as (i & <- & Hi). apply in_seq in Hi. exists i. split; [lia|auto]. }
  apply C08_no_bad_cast.
  - unfold sizesOk, defaultNodeSize. rewrite Hlen. repeat split; lia.
  - apply List.Forall_forall. intros b Hb. destruct (Inb b Hb) as (i & _ & ->). do 4 eexists. split; [reflexivity|]. destruct (sbox_ends (at_ pl i) (at_ pl (nextI pl i))) as ((A & B) & _). fold (sbox pl i) in A, B. lra.
  - apply Classical_Prop.NNPP. intros N. apply Ha.
    assert (G : forall i j, (i < length (vertexes pl))%nat -> (j < length (vertexes pl))%nat -> xMax (sbox pl j) <= xMin (sbox pl i)).
    { intros i j Hi Hj. apply Rnot_lt_le. intros Hlt. apply N. exists (toBox (sbox pl i)), (toBox (sbox pl j)). split; [auto|]. split; [auto|]. cbn [toBox bMinX bMaxX ext_ltb]. now apply Rltb_spec. }
    assert (X : forall i, (i < length (vertexes pl))%nat -> px (at_ pl i) = xMin (sbox pl 0)).
    { intros i Hi. pose proof (G 0%nat i ltac:(lia) Hi). pose proof (G i 0%nat Hi ltac:(lia)). destruct (sbox_ends (at_ pl i) (at_ pl (nextI pl i))) as ((A & _) & _). destruct (sbox_ends (at_ pl 0) (at_ pl (nextI pl 0))) as ((B & _) & _). fold (sbox pl i) in A. fold (sbox pl 0) in B. lra. }
    apply (area_scaled pl (xMin (sbox pl 0)) (fun v => py v) Hc). intros v1 v2 Hin. destruct (Sg v1 v2 Hin) as (i & Hi & -> & ->).
    destruct (proj1 (box_thin (at_ pl i) (at_ pl (nextI pl i))) (G i i Hi Hi)) as [E1 E2]. rewrite areaOf_line by (destruct E2; auto). rewrite <- E1, (X i Hi). ring.
  - apply Classical_Prop.NNPP. intros N. apply Ha.
    assert (G : forall i j, (i < length (vertexes pl))%nat -> (j < length (vertexes pl))%nat -> yMax (sbox pl j) <= yMin (sbox pl i)).
    { intros i j Hi Hj. apply Rnot_lt_le. intros Hlt. apply N. exists (toBox (sbox pl i)), (toBox (sbox pl j)). split; [auto|]. split; [auto|]. cbn [toBox bMinY bMaxY ext_ltb]. now apply Rltb_spec. }
    assert (X : forall i, (i < length (vertexes pl))%nat -> py (at_ pl i) = yMin (sbox pl 0)).
    { intros i Hi. pose proof (G 0%nat i ltac:(lia) Hi). pose proof (G i 0%nat Hi ltac:(lia)). destruct (sbox_ends (at_ pl i) (at_ pl (nextI pl i))) as ((_ & A) & _). destruct (sbox_ends (at_ pl 0) (at_ pl (nextI pl 0))) as ((_ & B) & _). fold (sbox pl i) in A. fold (sbox pl 0) in B. lra. }
    apply (area_scaled pl (- yMin (sbox pl 0)) (fun v => px v) Hc). intros v1 v2 Hin. destruct (Sg v1 v2 Hin) as (i & Hi & -> & ->).
    destruct (proj2 (box_thin (at_ pl i) (at_ pl (nextI pl i))) (G i i Hi Hi)) as [E1 E2]. rewrite areaOf_line by (destruct E2; auto). rewrite <- E1, (X i Hi). ring.
Qed.

(** ** Folds that cannot fail *)
Lemma mfold_total {A S} (f : S -> A -> res S) (Q : S -> Prop) l : (forall s a, In a l -> Q s -> exists s', f s a = Ok s' /\ Q s') -> forall s, Q s -> exists s', mfold f l s = Ok s' /\ Q s'.
Proof.
  induction l as [|a l IH]; intros H s Hs; [exists s; auto|]. cbn [mfold]. destruct (H s a (or_introl eq_refl) Hs) as (s1 & -> & H1). cbn [bind]. apply IH; [|exact H1]. intros; apply H; auto. now right.
Qed.

(** ** Specification *)
(** number of points at which the first loop is cut because of the second *)
Definition cutsBetween {SL : StdLib} (l1 l2 : offsetLoop) : nat :=
  match findIntersects defaultNodeSize (lpoly l1) (lpoly l2) (lindex l1) [] [] with Ok (xs, cs) => (length xs + 2 * length cs)%nat | _ => 0%nat end.
(** ... summed up over all pairs of different loops *)
Definition totalCuts {SL : StdLib} (L : list offsetLoop) : nat :=
  list_sum (map (fun il => list_sum (map (fun jl => if (fst il =? fst jl)%nat then 0%nat else cutsBetween (snd il) (snd jl)) (numbered L))) (numbered L)).

Section Total.
Context {SL : StdLib} {SLaws : StdLaws SL}.

(** *** The offset loops *)
Lemma allOffsets_intro input D i P p : inputLoop input i P -> In p (offsetsOf D P) -> In (i, p) (allOffsets input D).
Proof.
  intros Hi Hp. unfold allOffsets, numbered. apply in_flat_map. exists (i, P). cbn [fst snd]. split; [|apply in_map_iff; now exists p]. unfold inputLoop in Hi. revert Hi. generalize (ccwLoops input ++ cwLoops input) as l. intros l Hi.
  assert (G : forall l s i, nth_error l i = Some P -> In ((s + i)%nat, P) (List.combine (seq s (length l)) l)).
  { clear. induction l as [|x l IH]; intros s [|i] H; try discriminate; cbn [length seq List.combine]; [injection H as ->; left; f_equal; lia|]. right. replace (s + S i)%nat with (S s + i)%nat by lia. apply IH. exact H. }
  exact (G l 0%nat i Hi).
Qed.

Lemma made_indexed input D L i P p : offsetLoops input D L -> inputLoop input i P -> In p (offsetsOf D P) -> ((length (ccwLoops input) <= i)%nat \/ Rltb (getArea p) 0 = false) -> exists ix, createApproxSpatialIndex p = Ok ix.
Proof.
  intros [EL HI] Hi Hp Hs. pose proof (allOffsets_intro input D i P p Hi Hp) as Hin.
  assert (H : In (i, p) (map (fun l => (parentLoopIndex l, lpoly l)) L)).
  { rewrite EL. apply in_or_app. destruct (Rltb (getArea p) 0) eqn:Ea; [right|left]; apply filter_In; (split; [exact Hin|]); cbn [fst snd]; rewrite Ea; [|reflexivity]. destruct Hs as [Hs|]; [|discriminate]. cbn [andb]. now apply Nat.leb_le. }
  apply in_map_iff in H. destruct H as (l & E & Hl). injection E as _ <-. eauto.
Qed.

Lemma offsets_total o input D L : offsetLoops input D L -> (forall l, In l (ccwLoops input ++ cwLoops input) -> exists rs, parallelOffset (lpoly l) D false = Ok rs) ->
  exists o1, createOffsetLoops o input D = Ok o1.
Proof.
  intros HL Ho. unfold createOffsetLoops.
  assert (F1 : forall l n ccw, (forall i P, nth_error l i = Some P -> inputLoop input (n + i) P) -> exists r, mfold (fun '(parentIndex, ccw) loop =>
             let! offsets := parallelOffset (lpoly loop) D false in let! ccw := mfold (addCcwOffset parentIndex) offsets ccw in Ok (S parentIndex, ccw)) l (n, ccw) = Ok ((n + length l)%nat, r)).
  { induction l as [|P l IH]; intros n ccw Hl; cbn [mfold length]; [exists ccw; now rewrite Nat.add_0_r|]. pose proof (Hl 0%nat P eq_refl) as HP. rewrite Nat.add_0_r in HP.
    destruct (Ho P (nth_error_In _ _ HP)) as (rs & Er). rewrite Er. cbn [bind]. pose proof (offsetsOf_ok D P rs Er) as Eo.
    assert (exists c', mfold (addCcwOffset n) rs ccw = Ok c') as (c' & ->).
    { destruct (mfold_total (addCcwOffset n) (fun _ => True) rs) with (s := ccw) as (c' & E & _); eauto. intros s p Hp _. unfold addCcwOffset. rewrite neg_R. destruct (Rltb (getArea p) 0) eqn:Ea; [eauto|].
      destruct (made_indexed input D L n P p HL HP) as (ix & ->); [now rewrite Eo|now right|]. cbn [bind]. eauto. }
    cbn [bind]. destruct (IH (S n) c') as (r & Er'). { intros i Q HQ. replace (S n + i)%nat with (n + S i)%nat by lia. now apply Hl. } exists r. replace (n + S (length l))%nat with (S n + length l)%nat by lia. exact Er'. }
  destruct (F1 (ccwLoops input) 0%nat []) as (ccw & ->). { intros i P HP. unfold inputLoop. cbn [plus]. rewrite nth_error_app1; [exact HP|]. apply (proj1 (nth_error_Some _ _)). intros Q. pose proof (eq_trans (eq_sym HP) Q). discriminate. } cbn [bind plus].
  assert (F2 : forall l n ccw cw, (length (ccwLoops input) <= n)%nat -> (forall i P, nth_error l i = Some P -> inputLoop input (n + i) P) -> exists r, mfold (fun '(parentIndex, ccw, cw) loop =>
             let! offsets := parallelOffset (lpoly loop) D false in let! (ccw, cw) := mfold (addCwOffset parentIndex) offsets (ccw, cw) in Ok (S parentIndex, ccw, cw)) l (n, ccw, cw) = Ok r).
  { induction l as [|P l IH]; intros n c w Hn Hl; cbn [mfold]; [eauto|]. pose proof (Hl 0%nat P eq_refl) as HP. rewrite Nat.add_0_r in HP.
    destruct (Ho P (nth_error_In _ _ HP)) as (rs & Er). rewrite Er. cbn [bind]. pose proof (offsetsOf_ok D P rs Er) as Eo.
    assert (exists c', mfold (addCwOffset n) rs (c, w) = Ok c') as ([c' w'] & ->).
    { destruct (mfold_total (addCwOffset n) (fun _ => True) rs) with (s := (c, w)) as (c' & E & _); eauto. intros [s1 s2] p Hp _. unfold addCwOffset.
      destruct (made_indexed input D L n P p HL HP) as (ix & ->); [now rewrite Eo|now left|]. cbn [bind]. destruct (tltb _ _); eauto. }
    cbn [bind]. apply (IH (S n) c' w'); [lia|]. intros i Q HQ. replace (S n + i)%nat with (n + S i)%nat by lia. now apply Hl. }
  destruct (F2 (cwLoops input) (length (ccwLoops input)) ccw []) as (r & Er).
  - lia.
  - intros i P HP. unfold inputLoop. rewrite nth_error_app2 by lia. replace (length (ccwLoops input) + i - length (ccwLoops input))%nat with i by lia. exact HP.
  - match goal with |- context [bind ?m _] => replace m with (Ok r) by (symmetry; exact Er) end. cbn [bind]. destruct r as [[n c] w]. eauto.
Qed.

(** *** The index of the loops *)
Lemma loops_build L : (0 < length L)%nat -> manageable L -> exists ix, build defaultNodeSize (map loopBox L) = Ok ix /\
  forall l, exists q, query defaultNodeSize ix (m_minX (lindex l)) (m_minY (lindex l)) (m_maxX (lindex l)) (m_maxY (lindex l)) [] = Ok q.
Proof.
  intros H0 [H1 H2]. destruct (C01_query_exact ROrd _ ROrdLaws defaultNodeSize (map loopBox L)) as (ix' & E' & HQ).
  - unfold sizesOk, defaultNodeSize. rewrite map_length. repeat split; lia.
  - apply List.Forall_forall. intros b _. unfold okBox. auto.
  - rewrite map_length. exact H2.
  - exists ix'. split; [exact E'|]. intros l. destruct (HQ (loopBox l) []) as (r & Er & _ & _); [unfold okBox; auto|]. unfold loopBox in Er. cbn [bMinX bMinY bMaxX bMaxY] in Er. eauto.
Qed.

Lemma loopsIndex_total o ix : build defaultNodeSize (map loopBox (loopsOf o)) = Ok ix -> exists o2, createOffsetLoopsIndex o = Ok o2 /\ o_index o2 = Some ix.
Proof.
  unfold createOffsetLoopsIndex, build. intros E. rewrite map_length, <- total_length in E. apply bind_inv in E. destruct E as (ix0 & -> & E). cbn [bind].
  apply bind_inv in E. destruct E as (ix1 & E1 & E). unfold addAll in E1. rewrite mfold_map in E1. unfold loopsOf in E1. rewrite mfold_app in E1. apply bind_inv in E1. destruct E1 as (ix2 & E1 & E2).
  match goal with |- context [bind (mfold ?f (o_ccw o) ix0) _] => replace (mfold f (o_ccw o) ix0) with (Ok ix2) by (symmetry; exact E1) end. cbn [bind].
  match goal with |- context [bind (mfold ?f (o_cw o) ix2) _] => replace (mfold f (o_cw o) ix2) with (Ok ix1) by (symmetry; exact E2) end. cbn [bind].
  eexists. match goal with |- context [bind ?m _] => replace m with (Ok ix) by (symmetry; exact E) end. cbn [bind]. split; [reflexivity|]. reflexivity.
Qed.

(** *** Collecting the slice points *)
Lemma pts_total l1 l2 : indexable (lpoly l1) -> indexable (lpoly l2) -> createApproxSpatialIndex (lpoly l1) = Ok (lindex l1) ->
  exists intrs coinc pts, findIntersects defaultNodeSize (lpoly l1) (lpoly l2) (lindex l1) [] [] = Ok (intrs, coinc) /\
    (if negb (length coinc =? 0)%nat
     then let! cs := sortAndjoinCoincidentSlices coinc (lpoly l1) (lpoly l2) in Ok (map (fun x => mkLSP x false) intrs ++ map (fun x => mkLSP x false) (csStarts cs) ++ map (fun x => mkLSP x true) (csEnds cs))
     else Ok (map (fun x => mkLSP x false) intrs)) = Ok pts /\
    (length pts <= cutsBetween l1 l2)%nat /\ forall p, In p pts -> (sIndex1 (lspIntr p) < length (vertexes (lpoly l1)))%nat /\ (sIndex2 (lspIntr p) < length (vertexes (lpoly l2)))%nat.
Proof.
  intros H1 H2 Eix. destruct (C30_find_intersects (lpoly l1) (lpoly l2) H1 (proj1 H2)) as (ix & _ & intrs & coinc & Eix' & Ef & _). assert (ix = lindex l1) by congruence. subst ix.
  destruct (C30_sound (lpoly l1) (lpoly l2) (lindex l1) intrs coinc H1 (proj1 H2) Eix Ef) as [Si Sc]. pose proof (segCount_le (lpoly l1) (proj1 H1)) as S1. pose proof (segCount_le (lpoly l2) (proj1 H2)) as S2.
  exists intrs, coinc. unfold cutsBetween. rewrite Ef.
  assert (Hi : forall x, In x intrs -> (sIndex1 x < length (vertexes (lpoly l1)))%nat /\ (sIndex2 x < length (vertexes (lpoly l2)))%nat) by (intros x Hx; apply Si in Hx; lia).
  destruct (Nat.eqb_spec (length coinc) 0) as [E0|E0]; cbn [negb].
  - eexists. split; [reflexivity|]. split; [reflexivity|]. rewrite map_length. split; [lia|]. intros p Hp. apply in_map_iff in Hp. destruct Hp as (x & <- & Hx). now apply Hi.
  - assert (Hne : coinc <> []) by (intros ->; now apply E0). assert (Hidx : forall c, In c coinc -> okIdx (lpoly l1) (lpoly l2) c) by (intros c Hc; apply Sc in Hc; unfold okIdx; lia).
    destruct (C32_consistent coinc (lpoly l1) (lpoly l2) Hne Hidx) as (r & Er & _ & _ & Hperm). destruct (C32_lengths coinc (lpoly l1) (lpoly l2) r Hne Hidx Er) as (_ & L1 & L2 & _ & Hs & Hx).
    assert (Ls : (length (csSlices r) <= length coinc)%nat).
    { apply Permutation_length in Hperm. rewrite map_length in Hperm.
      assert (length (csSlices r) <= length (concat (map (fun s => removelast (vertexes s)) (csSlices r))))%nat; [|lia].
      clear -Hs. induction (csSlices r) as [|s l IH]; [cbn; lia|]. cbn [map concat length]. rewrite app_length, (removelast_len []).
      destruct (Hs s (or_introl eq_refl)) as [_ H2]. specialize (IH (fun s' H => Hs s' (or_intror H))). lia. }
    rewrite Er. cbn [bind]. eexists. split; [reflexivity|]. split; [reflexivity|]. rewrite !app_length, !map_length. split; [lia|].
    intros p Hp. rewrite !in_app_iff, !in_map_iff in Hp. destruct Hp as [(x & <- & Hp)|[(x & <- & Hp)|(x & <- & Hp)]]; cbn [lspIntr]; [now apply Hi|apply Hx; now left|apply Hx; now right].
Qed.

Definition npts (s : slicePointSet) : nat := length (slicePoints s).
Definition wt (sets : list slicePointSet) (n : nat) : nat := match nth_error sets n with Some s => npts s | None => 0%nat end.
Definition load1 (sets : list slicePointSet) (li : list nat) : nat := list_sum (map (wt sets) li).
Definition load (sets : list slicePointSet) (lk : list (list nat)) : nat := list_sum (map (load1 sets) lk).

Lemma list_sum_app' l l' : list_sum (l ++ l') = (list_sum l + list_sum l')%nat.
Proof. apply list_sum_app. Qed.

Lemma push_total sets lk i x : (i < length lk)%nat -> exists lk', lookupPush lk i x = Ok lk' /\ length lk' = length lk /\ load sets lk' = (load sets lk + wt sets x)%nat.
Proof.
  intros Hi. unfold lookupPush. destruct (rget_ok lk i Hi) as (li & -> & En). cbn [bind].
  assert (G : forall (l : list (list nat)) i li, nth_error l i = Some li -> exists l', rset l i (li ++ [x]) = Ok l' /\ length l' = length l /\ load sets l' = (load sets l + wt sets x)%nat).
  { clear. intros l i li En. unfold rset. assert (Hlt : (i < length l)%nat) by (apply nth_error_Some; congruence). destruct (Nat.ltb_spec i (length l)); [|lia]. eexists. split; [reflexivity|]. split; [apply upd_length|].
    clear Hlt H. revert i En. unfold load. induction l as [|a l IH]; intros [|i] En; try discriminate; cbn [nth_error] in En; cbn [upd map]; change (list_sum (?a :: ?b)) with (a + list_sum b)%nat.
    - injection En as ->. unfold load1 at 1 3. rewrite map_app, list_sum_app. cbn [map]. change (list_sum [wt sets x]) with (wt sets x + 0)%nat. lia.
    - rewrite (IH i En). lia. }
  exact (G lk i li En).
Qed.

Lemma load_more sets s lk : (forall la n, In la lk -> In n la -> (n < length sets)%nat) -> load (sets ++ [s]) lk = load sets lk.
Proof.
  intros H. unfold load. f_equal. apply map_ext_in. intros la Hla. unfold load1. f_equal. apply map_ext_in. intros n Hn. unfold wt. rewrite nth_error_app1; [reflexivity|]. eauto.
Qed.

Section CollectTotal.
Context (o : islandsObj).
Let L := loopsOf o.
Hypothesis HL : forall l, In l L -> indexable (lpoly l) /\ createApproxSpatialIndex (lpoly l) = Ok (lindex l).

Definition cb (xy : nat * nat) : nat := match nth_error L (fst xy), nth_error L (snd xy) with Some a, Some b => if (fst xy =? snd xy)%nat then 0%nat else cutsBetween a b | _, _ => 0%nat end.
Definition setIn (s : slicePointSet) : Prop := exists l1 l2, nth_error L (loopIndex1 s) = Some l1 /\ nth_error L (loopIndex2 s) = Some l2 /\
  forall p, In p (slicePoints s) -> (sIndex1 (lspIntr p) < length (vertexes (lpoly l1)))%nat /\ (sIndex2 (lspIntr p) < length (vertexes (lpoly l2)))%nat.

Record Col (seen : nat -> nat -> Prop) (st : list (nat * nat) * list slicePointSet * list (list nat)) : Prop := {
  col_len : length (snd st) = length L;
  col_nd : NoDup (fst (fst st));
  col_vis : forall x y, In (x, y) (fst (fst st)) -> seen x y /\ (x < length L)%nat /\ (y < length L)%nat;
  col_sets : forall s, In s (snd (fst st)) -> setIn s;
  col_lk : forall a la n, nth_error (snd st) a = Some la -> In n la -> exists s, nth_error (snd (fst st)) n = Some s /\ (loopIndex1 s = a \/ loopIndex2 s = a);
  col_wt : (list_sum (map npts (snd (fst st))) <= list_sum (map cb (fst (fst st))))%nat;
  col_load : (load (snd (fst st)) (snd st) <= 2 * list_sum (map npts (snd (fst st))))%nat }.

Lemma pair_total i li j (seen : nat -> nat -> Prop) st : nth_error L i = Some li -> (j < length L)%nat -> ~ seen i j -> Col seen st ->
  exists st', slicePointsPair o i li st j = Ok st' /\ Col (fun x y => seen x y \/ (x = i /\ y = j)) st'.
Proof.
  intros Hi Hj Hns C. destruct st as [[vis sets] lk]. destruct C as [C1 C2 C3 C4 C5 C6 C7]. cbn [fst snd] in *. unfold slicePointsPair.
  assert (Same : Col (fun x y => seen x y \/ (x = i /\ y = j)) (vis, sets, lk)) by (constructor; cbn [fst snd]; auto; intros x y H; destruct (C3 x y H) as (A & B & D); auto).
  destruct (Nat.eqb_spec i j) as [Eij|Nij]; [eauto|]. destruct (pairMem j i vis); [eauto|].
  destruct (nth_error L j) as [lj|] eqn:Elj; [|apply nth_error_None in Elj; lia]. assert (Eg : getOffsetLoop o j = Ok lj) by (apply getLoop_nth; exact Elj). rewrite Eg. cbn [bind].
  destruct (HL li (nth_error_In _ _ Hi)) as [Ii Xi]. destruct (HL lj (nth_error_In _ _ Elj)) as [Ij _]. destruct (pts_total li lj Ii Ij Xi) as (intrs & coinc & pts & Ef & Ep & Lp & Hp). rewrite Ef. cbn [bind].
  assert (Hil : (i < length L)%nat) by (apply nth_error_Some; rewrite Hi; discriminate).
  assert (V1 : NoDup ((i, j) :: vis)). { constructor; [|auto]. intros F. destruct (C3 i j F) as (A & _). contradiction. }
  assert (V2 : forall x y, In (x, y) ((i, j) :: vis) -> (seen x y \/ (x = i /\ y = j)) /\ (x < length L)%nat /\ (y < length L)%nat).
  { intros x y [E|H]; [injection E as <- <-; auto|]. destruct (C3 x y H) as (A & B & D). auto. }
  destruct (negb (length intrs =? 0)%nat || negb (length coinc =? 0)%nat).
  - match goal with |- context [bind ?m _] => replace m with (Ok pts) by (symmetry; exact Ep) end. cbn [bind]. rewrite app_length. cbn [length]. replace (length sets + 1 - 1)%nat with (length sets) by lia.
    set (s := mkSPS i j pts). assert (Bd : forall la n, In la lk -> In n la -> (n < length sets)%nat).
    { intros la n Hla Hn. apply In_nth_error in Hla. destruct Hla as (a & Ha). destruct (C5 a la n Ha Hn) as (s0 & Es & _). apply nth_error_Some. rewrite Es. discriminate. }
    destruct (push_total (sets ++ [s]) lk i (length sets)) as (lk1 & E1 & L1 & W1); [lia|]. destruct (push_total (sets ++ [s]) lk1 j (length sets)) as (lk2 & E2 & L2 & W2); [lia|].
    rewrite E1. cbn [bind]. rewrite E2. cbn [bind]. eexists. split; [reflexivity|].
    assert (Ws : wt (sets ++ [s]) (length sets) = length pts) by (unfold wt; rewrite nth_error_app2, Nat.sub_diag by lia; reflexivity).
    constructor; cbn [fst snd]; auto.
    + lia.
    + intros s0 Hs0. apply in_app_or in Hs0. destruct Hs0 as [Hs0|[<-|[]]]; [auto|]. exists li, lj. cbn [loopIndex1 loopIndex2 slicePoints s]. auto.
    + intros a la n Ha Hn. destruct (lookupPush_inv _ _ _ _ E2 a la Ha) as (la1 & Ha1 & HH2). destruct (lookupPush_inv _ _ _ _ E1 a la1 Ha1) as (la0 & Ha0 & HH1).
      assert (Hcase : In n la0 \/ (n = length sets /\ (a = i \/ a = j))).
      { destruct HH2 as [->|[-> ->]]; [|apply in_app_or in Hn; destruct Hn as [Hn|[<-|[]]]; [|tauto]];
        (destruct HH1 as [->|[-> ->]]; [tauto|]; apply in_app_or in Hn; destruct Hn as [Hn|[<-|[]]]; tauto). }
      destruct Hcase as [Hc|[-> Hc]].
      * destruct (C5 a la0 n Ha0 Hc) as (s0 & Es & Hs). exists s0. split; [|auto]. rewrite nth_error_app1; [auto|]. apply nth_error_Some. rewrite Es. discriminate.
      * exists s. split; [rewrite nth_error_app2, Nat.sub_diag by lia; reflexivity|]. cbn. destruct Hc; auto.
    + rewrite map_app, list_sum_app. cbn [map]. change (list_sum [npts s]) with (length pts + 0)%nat. change (list_sum (cb (i, j) :: map cb vis)) with (cb (i, j) + list_sum (map cb vis))%nat.
      assert (cb (i, j) = cutsBetween li lj) by (unfold cb; cbn [fst snd]; rewrite Hi, Elj; destruct (Nat.eqb_spec i j); [contradiction|reflexivity]). lia.
    + rewrite W2, W1, Ws, (load_more sets s lk Bd), map_app, list_sum_app. cbn [map]. change (list_sum [npts s]) with (length pts + 0)%nat. lia.
  - eexists. split; [reflexivity|]. constructor; cbn [fst snd]; auto. change (list_sum (map cb ((i, j) :: vis))) with (cb (i, j) + list_sum (map cb vis))%nat. lia.
Qed.

Lemma col_ext (P Q : nat -> nat -> Prop) st : (forall x y, P x y -> Q x y) -> Col P st -> Col Q st.
Proof. intros H [A B C D E F G]. constructor; auto. intros x y Hxy. destruct (C x y Hxy) as (U & V & W). auto. Qed.

Lemma sum_incl {X} (f : X -> nat) l : NoDup l -> forall l', incl l l' -> (list_sum (map f l) <= list_sum (map f l'))%nat.
Proof.
  induction 1 as [|x l Hx N IH]; intros l' Hi; [cbn; lia|]. destruct (in_split x l' (Hi x (or_introl eq_refl))) as (l1 & l2 & ->).
  assert (I' : incl l (l1 ++ l2)). { intros y Hy. specialize (Hi y (or_intror Hy)). apply in_app_or in Hi. apply in_or_app. destruct Hi as [Hi|[<-|Hi]]; [auto|contradiction|auto]. }
  specialize (IH _ I'). rewrite map_app, list_sum_app in *. cbn [map]. change (list_sum (?a :: ?b)) with (a + list_sum b)%nat. lia.
Qed.

Lemma cb_total vis : NoDup vis -> (forall x y, In (x, y) vis -> (x < length L)%nat /\ (y < length L)%nat) -> (list_sum (map cb vis) <= totalCuts L)%nat.
Proof.
  intros N H. transitivity (list_sum (map cb (list_prod (seq 0 (length L)) (seq 0 (length L))))).
  - apply sum_incl; [exact N|]. intros [x y] Hxy. destruct (H x y Hxy). apply in_prod; apply in_seq; lia.
  - apply Nat.eq_le_incl. unfold totalCuts.
    assert (G : forall (F : nat * offsetLoop -> nat) (l : list offsetLoop), list_sum (map F (numbered l)) = list_sum (map (fun i => match nth_error l i with Some a => F (i, a) | None => 0%nat end) (seq 0 (length l)))).
    { clear. intros F l. unfold numbered. enough (E : forall s pre, length pre = s -> list_sum (map F (List.combine (seq s (length l)) l)) = list_sum (map (fun i => match nth_error (pre ++ l) i with Some a => F (i, a) | None => 0%nat end) (seq s (length l)))) by exact (E 0%nat [] eq_refl).
      induction l as [|x l IH]; intros s pre Hp; [reflexivity|]. cbn [map length seq List.combine]. change (list_sum (?a :: ?b)) with (a + list_sum b)%nat. rewrite nth_error_app2, Hp, Nat.sub_diag by lia. cbn [nth_error]. f_equal.
      rewrite (IH (S s) (pre ++ [x])) by (rewrite app_length; cbn; lia). rewrite <- app_assoc. reflexivity. }
    rewrite (G (fun il => list_sum (map (fun jl => if (fst il =? fst jl)%nat then 0%nat else cutsBetween (snd il) (snd jl)) (numbered L))) L). generalize (seq 0 (length L)) at 1 3 as xs. induction xs as [|x xs IH]; [reflexivity|]. cbn [list_prod map]. change (list_sum (?a :: ?b)) with (a + list_sum b)%nat.
    rewrite map_app, list_sum_app, IH. f_equal. rewrite map_map. cbn [fst snd]. destruct (nth_error L x) as [lx|] eqn:Ex.
    + rewrite (G (fun jl => if (x =? fst jl)%nat then 0%nat else cutsBetween lx (snd jl)) L). f_equal. apply map_ext. intros y. unfold cb. cbn [fst snd]. rewrite Ex. reflexivity.
    + generalize (seq 0 (length L)) as ys. clear -Ex. induction ys as [|y ys IH]; [reflexivity|]. cbn [map]. change (list_sum (?a :: ?b)) with (a + list_sum b)%nat. rewrite IH. unfold cb. cbn [fst snd]. rewrite Ex. reflexivity.
Qed.

Lemma collect_total ix : (0 < length L)%nat -> manageable L -> o_index o = Some ix -> build defaultNodeSize (map loopBox L) = Ok ix ->
  exists o', createSlicePoints o = Ok o' /\ loopsOf o' = L /\ o_ccw o' = o_ccw o /\ length (o_lookup o') = length L /\ (forall s, In s (o_sets o') -> setIn s) /\
    (forall a la n, nth_error (o_lookup o') a = Some la -> In n la -> exists s, nth_error (o_sets o') n = Some s /\ (loopIndex1 s = a \/ loopIndex2 s = a)) /\
    (load (o_sets o') (o_lookup o') <= 2 * totalCuts L)%nat.
Proof.
  intros H0 HM Eix Eb. unfold createSlicePoints. rewrite Eix. cbn [ofOption bind]. rewrite total_length. fold L. destruct (loops_build L H0 HM) as (ix' & Eb' & Qt). assert (ix' = ix) by congruence. subst ix'.
  assert (Outer : forall n i st, (i + n = length L)%nat -> Col (fun x _ => (x < i)%nat) st -> exists st',
    mfold (fun st i => let! loop1 := getOffsetLoop o i in let index1 := lindex loop1 in
      let! q := query defaultNodeSize ix (m_minX index1) (m_minY index1) (m_maxX index1) (m_maxY index1) [] in mfold (slicePointsPair o i loop1) q st) (seq i n) st = Ok st' /\ Col (fun x _ => (x < i + n)%nat) st').
  { induction n as [|n IH]; intros i st Hn C; cbn [seq mfold]; [exists st; split; [reflexivity|]; rewrite Nat.add_0_r; exact C|].
    destruct (nth_error L i) as [li|] eqn:Eli; [|apply nth_error_None in Eli; lia]. assert (Eg : getOffsetLoop o i = Ok li) by (apply getLoop_nth; exact Eli). rewrite Eg. cbn [bind]. cbv zeta.
    destruct (Qt li) as (q & Eq). rewrite Eq. cbn [bind]. destruct (loops_query L ix H0 HM Eb li q Eq) as [Nq Hq].
    assert (Inner : forall suf pre s, q = pre ++ suf -> Col (fun x y => (x < i)%nat \/ (x = i /\ In y pre)) s -> exists s', mfold (slicePointsPair o i li) suf s = Ok s' /\ Col (fun x y => (x < i)%nat \/ (x = i /\ In y q)) s').
    { induction suf as [|j suf IHs]; intros pre s Esp Cs; cbn [mfold]; [exists s; split; [reflexivity|]; rewrite app_nil_r in Esp; now subst pre|].
      assert (Hj : (j < length L)%nat). { destruct (proj1 (Hq j)) as (lj & Ej & _); [rewrite Esp; apply in_or_app; right; now left|]. apply nth_error_Some. rewrite Ej. discriminate. }
      assert (NS : ~ ((i < i)%nat \/ (i = i /\ In j pre))). { intros [F|[_ F]]; [lia|]. rewrite Esp in Nq. apply NoDup_remove_2 in Nq. apply Nq. apply in_or_app. now left. }
      destruct (pair_total i li j (fun x y => (x < i)%nat \/ (x = i /\ In y pre)) s Eli Hj NS Cs) as (s1 & E1 & C1).
      rewrite E1. cbn [bind]. apply (IHs (pre ++ [j]) s1); [now rewrite <- app_assoc|]. eapply col_ext; [|exact C1]. cbn beta. intros x y [[A|[A B]]|[A B]]; [now left|right; split; [auto|apply in_or_app; auto]|right; split; [auto|apply in_or_app; right; left; auto]]. }
    destruct (Inner q [] st eq_refl) as (st1 & E1 & C1). { eapply col_ext; [|exact C]. cbn beta. auto. }
    rewrite E1. cbn [bind]. destruct (IH (S i) st1) as (st2 & E2 & C2); [lia| |exists st2; split; [exact E2|]]. { eapply col_ext; [|exact C1]. cbn beta. intros x y [A|[A _]]; lia. }
    eapply col_ext; [|exact C2]. cbn beta. intros. lia. }
  destruct (Outer (length L) 0%nat ([], [], repeat [] (length L)) eq_refl) as ([[vis sets] lk] & E & C).
  - constructor; cbn [fst snd].
    + apply repeat_length.
    + constructor.
    + intros x y [].
    + intros s [].
    + intros a la n Ha Hn. apply nth_error_In, repeat_spec in Ha. subst la. destruct Hn.
    + cbn. lia.
    + clear. unfold load. induction (length L) as [|n IH]; [cbn; lia|]. cbn [repeat map]. change (list_sum (?a :: ?b)) with (a + list_sum b)%nat. change (load1 [] []) with 0%nat. cbn [map list_sum fold_right] in *. lia.
  - match goal with |- context [bind ?m _] => replace m with (Ok (vis, sets, lk)) by (symmetry; exact E) end. cbn [bind]. eexists. split; [reflexivity|]. destruct C as [C1 C2 C3 C4 C5 C6 C7]. cbn [fst snd] in *. cbn [o_lookup o_sets].
    split; [reflexivity|]. split; [reflexivity|]. split; [exact C1|]. split; [exact C4|]. split; [exact C5|]. assert (list_sum (map cb vis) <= totalCuts L)%nat by (apply cb_total; [exact C2|]; intros x y H; destruct (C3 x y H); tauto). lia.
Qed.
End CollectTotal.

(** *** Cutting one loop *)
Lemma add_len s (v : vertex) : (length (vertexes (addOrReplaceIfSamePos s v)) <= S (length (vertexes s)))%nat.
Proof.
  destruct (vertexes s) as [|w t] eqn:Es.
  - unfold addOrReplaceIfSamePos. rewrite Es. cbn [rev]. unfold addVertex. cbn [vertexes]. rewrite Es. cbn. lia.
  - destruct (addOrReplace_cases s v) as [[E|(l & x & E & _ & E')] _]; [rewrite Es; discriminate| |].
    + rewrite E, app_length, Es. cbn. lia.
    + rewrite E', app_length. assert (length (w :: t) = length (l ++ [x])) by (rewrite <- Es, E; reflexivity). rewrite app_length in H. cbn [length] in *. lia.
Qed.

Lemma setLast_len s (v : vertex) s' : setLastVertex s v = Ok s' -> length (vertexes s') = length (vertexes s).
Proof.
  unfold setLastVertex. destruct (rev (vertexes s)) as [|x t] eqn:E; [discriminate|]. intros H. injection H as <-. cbn [vertexes]. rewrite app_length, rev_length. apply (f_equal (@length _)) in E. rewrite rev_length in E. cbn [length] in *. lia.
Qed.

Lemma dissLoop_len pl m : forall fuel s i s' e, dissLoop fuel pl m s i = Ok (s', e) -> (length (vertexes s') <= length (vertexes s) + fuel + 1)%nat.
Proof.
  induction fuel as [|fuel IH]; intros s i s' e E; [discriminate|]. cbn [dissLoop] in E. apply bind_inv in E. destruct E as (v & _ & E). pose proof (add_len s v) as A. set (s1 := addOrReplaceIfSamePos s v) in *. clearbody s1.
  destruct (mfind i m) as [l|].
  - apply bind_inv in E. destruct E as (p & _ & E). apply bind_inv in E. destruct E as (nv & _ & E). apply bind_inv in E. destruct E as (lv & _ & E). apply bind_inv in E. destruct E as (cs & Ec & E). injection E as <- _.
    apply setLast_len in Ec. pose proof (add_len cs (mkVtx (dpos p) (0 / 1))). rcbn. lia.
  - apply IH in E. lia.
Qed.

Lemma dissLoop_total pl m : (forall k l, mfind k m = Some l -> l <> []) -> forall fuel s i s', sliceLoop fuel pl (toTable m) s i = Ok s' -> exists e, dissLoop fuel pl m s i = Ok (s', e).
Proof.
  intros Hm. induction fuel as [|fuel IH]; intros s i s' E; [discriminate|]. cbn [dissLoop sliceLoop] in *. apply bind_inv in E. destruct E as (v & -> & E). cbn [bind].
  rewrite mfind_toTable in E. destruct (mfind i m) as [l|] eqn:Ef; cbn [option_map] in E; [|eauto].
  destruct l as [|p0 l]; [now elim (Hm i [])|]. cbn [map toSP spPos] in E. change (rget (p0 :: l) 0) with (Ok p0). cbn [bind].
  apply bind_inv in E. destruct E as (nv & -> & E). cbn [bind]. apply bind_inv in E. destruct E as (lv & -> & E). cbn [bind]. apply bind_inv in E. destruct E as (cs & -> & E). cbn [bind].
  injection E as <-. eauto.
Qed.

Lemma midDiss_total valid li segEnd rest : (forall p, exists b, valid p = Ok b) -> forall w p result, exists new, midDissSlices valid li segEnd w p rest result = Ok (result ++ new) /\ (length new <= length rest)%nat /\
  (forall s, In s new -> isClosed (dsPline s) = false /\ length (vertexes (dsPline s)) = 2%nat).
Proof.
  intros Hv. induction rest as [|q rest IH]; intros w p result; cbn [midDissSlices]; [exists []; rewrite app_nil_r; split; [auto|]; split; [auto|intros s []]|].
  set (sp := splitAtPoint w segEnd (dpos q)).
  assert (exists keep, (if fuzzyEqual (pos (updatedStart sp)) (pos (splitVertex sp)) realPrecision then Ok false else valid (segMidpoint (updatedStart sp) (splitVertex sp))) = Ok keep) as (keep & Ek) by (destruct (fuzzyEqual _ _ _); eauto).
  match goal with |- context [bind ?m _] => replace m with (Ok keep) by (symmetry; exact Ek) end. cbn [bind]. destruct keep.
  - destruct (IH (splitVertex sp) q (result ++ [mkDS (mkPline false [updatedStart sp; splitVertex sp]) li (otherLoopIndex p) (otherLoopIndex q)])) as (new & E & Ln & Hn).
    eexists (_ :: new). split; [rewrite E; rewrite <- app_assoc; reflexivity|]. split; [cbn [length]; lia|]. intros s [<-|Hs]; [cbn; auto|auto].
  - destruct (IH (splitVertex sp) q result) as (new & E & Ln & Hn). exists new. split; [exact E|]. split; [cbn [length]; lia|auto].
Qed.

Lemma dissOne_total valid li pl m result k l : (forall p, exists b, valid p = Ok b) -> goodTable (fun k _ => (k < length (vertexes pl))%nat) m -> In (k, l) m ->
  exists new, dissOne valid li pl m result (k, l) = Ok (result ++ new) /\ (length new <= length l)%nat /\
    (forall s, In s new -> isClosed (dsPline s) = false /\ (2 <= length (vertexes (dsPline s)) <= length (vertexes pl) + 3)%nat).
Proof.
  intros Hv G Hin. pose proof (toTable_table _ _ G) as Tm. destruct G as [N G]. destruct (G k l Hin) as [Hne Hl]. destruct l as [|p0 rest]; [contradiction|].
  assert (Ik : (k < length (vertexes pl))%nat) by (apply (Hl p0); now left). pose proof (next_lt _ _ Ik) as In1.
  unfold dissOne, size. rewrite !vget_at by auto. cbn [bind].
  set (v1 := at_ pl k). set (v2 := at_ pl (nextWrappingIndex k (length (vertexes pl)))).
  assert (exists one, (if negb (length (p0 :: rest) =? 1)%nat then midDissSlices valid li v2 (splitVertex (splitAtPoint v1 v2 (dpos p0))) p0 rest result else Ok result) = Ok (result ++ one) /\ (length one <= length rest)%nat /\
    (forall s, In s one -> isClosed (dsPline s) = false /\ length (vertexes (dsPline s)) = 2%nat)) as (one & E1 & L1 & H1).
  { destruct (negb _); [now apply midDiss_total|]. exists []. rewrite app_nil_r. split; [auto|]. split; [cbn; lia|intros s []]. }
  match goal with |- context [bind ?m _] => replace m with (Ok (result ++ one)) by (symmetry; exact E1) end. cbn [bind].
  set (p := last rest p0). assert (Hp : In p (p0 :: rest)). { unfold p. destruct rest as [|y rest]; [now left|]. right. destruct (exists_last (l := y :: rest) ltac:(discriminate)) as (l' & x & ->). rewrite last_last. apply in_or_app. right. now left. }
  assert (Ic : forall x, In x (p0 :: rest) -> In (k, toSP x) (cutsOf m)) by (intros x Hx; apply cutsOf_In; exists (p0 :: rest), x; auto).
  set (s0 := mkPline false [splitVertex (splitAtPoint v1 v2 (dpos p))]).
  assert (Hk : forall k c, In (k, c) (cutsOf m) -> (k < length (vertexes pl))%nat) by (intros k' c Hc; apply cutsOf_In in Hc; destruct Hc as (l0 & q & Hl0 & Hq & _); exact (proj2 (G k' l0 Hl0) q Hq)).
  destruct (sliceLoop_ok pl (toTable m) (cutsOf m) k Tm Hk Ik (ex_intro (fun p => In (k, p) (cutsOf m)) (toSP p0) (Ic p0 (or_introl eq_refl))) (S (length (vertexes pl))) (nextWrappingIndex k (length (vertexes pl))) s0) as (s & Es & Hc & Hn & _); auto.
  { pose proof (steps_lt _ _ _ In1 Ik). lia. }
  { discriminate. }
  { cbn [s0 vertexes hd]. exists k, (toSP p). split; [now apply Ic|]. left. apply split_pos. }
  destruct (dissLoop_total pl m) with (2 := Es) as (e & Ed). { intros k' l' Ef. apply mfind_spec in Ef; [|exact N]. exact (proj1 (G k' l' Ef)). }
  pose proof (dissLoop_len _ _ _ _ _ _ _ Ed) as Ls. cbn [s0 vertexes length] in Ls.
  match goal with |- context [bind ?m _] => replace m with (Ok (s, e)) by (symmetry; exact Ed) end. cbn [bind].
  assert (H1' : forall x, In x one -> isClosed (dsPline x) = false /\ (2 <= length (vertexes (dsPline x)) <= length (vertexes pl) + 3)%nat) by (intros x Hx; destruct (H1 x Hx); split; [auto|lia]).
  destruct (Nat.ltb_spec 1 (length (vertexes s))) as [Lt|Lt]; [|exists one; cbn [length]; auto].
  rewrite vget_at by lia. cbn [bind].
  destruct (exists_last Hn) as (l1 & b & Eb). assert (Elv : lastVertex s = Ok b) by (unfold lastVertex; rewrite Eb, rev_app_distr; reflexivity). rewrite Elv. cbn [bind].
  destruct (Hv (segMidpoint (at_ s (length (vertexes s) - 2)) b)) as (ok & Eok). rewrite Eok. cbn [bind]. destruct ok; cbn [negb]; [|exists one; cbn [length]; auto].
  eexists (one ++ [_]). rewrite app_assoc. split; [reflexivity|]. split; [rewrite app_length; cbn [length]; lia|]. intros x Hx. apply in_app_or in Hx. destruct Hx as [Hx|[<-|[]]]; [auto|]. cbn [dsPline]. split; [exact Hc|lia].
Qed.

Definition countDiss (m : list (nat * list dissPoint)) : nat := list_sum (map (fun kl => length (snd kl)) m).
Lemma countDiss_perm m m' : Permutation m m' -> countDiss m = countDiss m'.
Proof. intros H. unfold countDiss. induction H; cbn [map snd]; unfold list_sum in *; cbn [fold_right] in *; lia. Qed.
Lemma mpush_count k v (m : list (nat * list dissPoint)) : countDiss (mpush k v m) = S (countDiss m).
Proof.
  unfold countDiss. induction m as [|[k0 l0] m IH]; [reflexivity|]. cbn [mpush]. destruct (k =? k0)%nat; cbn [map snd]; unfold list_sum in *; cbn [fold_right] in *; [rewrite app_length; cbn [length]; lia|]. lia.
Qed.

Lemma pushes_good (P : nat -> vec -> Prop) (f : loopSlicePoint -> nat) (g : loopSlicePoint -> dissPoint) pts : (forall p, In p pts -> P (f p) (dpos (g p))) -> forall m, goodTable P m ->
  goodTable P (fold_left (fun m p => mpush (f p) (g p) m) pts m) /\ countDiss (fold_left (fun m p => mpush (f p) (g p) m) pts m) = (countDiss m + length pts)%nat.
Proof.
  induction pts as [|p pts IH]; intros Hp m Hm; cbn [fold_left length]; [split; [auto|lia]|]. destruct (IH (fun q Hq => Hp q (or_intror Hq)) (mpush (f p) (g p) m)) as [G C]; [apply push_good; [apply Hp; now left|auto]|].
  split; [exact G|]. rewrite C, mpush_count. lia.
Qed.

Lemma sort_total pl m : goodTable (fun k _ => (k < length (vertexes pl))%nat) m -> exists m', sortDiss pl m = Ok m' /\ countDiss m' = countDiss m.
Proof.
  intros [_ G]. unfold sortDiss. induction m as [|[k l] m IH]; cbn [mmap]; [eauto|]. destruct IH as (m' & Em & Cm); [intros k0 l0 H0; apply G; now right|].
  destruct (G k l (or_introl eq_refl)) as [Hne Hl]. destruct l as [|p l]; [contradiction|]. assert (Ik : (k < length (vertexes pl))%nat) by (apply (Hl p); now left). rewrite vget_at by auto. cbn [bind].
  match goal with |- context [bind ?m _] => replace m with (Ok m') by (symmetry; exact Em) end. cbn [bind]. eexists. split; [reflexivity|].
  unfold countDiss in *. cbn [map snd]. change (list_sum (?a :: ?b)) with (a + list_sum b)%nat. rewrite Cm. f_equal. apply Permutation_length, sort_perm.
Qed.

Section Cutting.
Context (o : islandsObj) (input : loopSet) (D : R) (L : list offsetLoop).
Hypothesis EL : loopsOf o = L.
Hypothesis Hin : forall l, In l (ccwLoops input ++ cwLoops input) -> indexed l.
Hypothesis Hsets : forall s, In s (o_sets o) -> exists l1 l2, nth_error L (loopIndex1 s) = Some l1 /\ nth_error L (loopIndex2 s) = Some l2 /\
  forall p, In p (slicePoints s) -> (sIndex1 (lspIntr p) < length (vertexes (lpoly l1)))%nat /\ (sIndex2 (lspIntr p) < length (vertexes (lpoly l2)))%nat.
Hypothesis Hlk : forall a la n, nth_error (o_lookup o) a = Some la -> In n la -> exists s, nth_error (o_sets o) n = Some s /\ (loopIndex1 s = a \/ loopIndex2 s = a).

Lemma fill_total i l la : nth_error L i = Some l -> nth_error (o_lookup o) i = Some la ->
  exists m, fillDiss o i = Ok m /\ goodTable (fun k _ => (k < length (vertexes (lpoly l)))%nat) m /\ countDiss m = load1 (o_sets o) la.
Proof.
  intros Hi Ha. unfold fillDiss. rewrite (proj2 (rget_inv _ _ _) Ha). cbn [bind].
  assert (G : forall ns, incl ns la -> forall m0, goodTable (fun k _ => (k < length (vertexes (lpoly l)))%nat) m0 -> exists m,
    mfold (fun m setIndex => let! s := rget (o_sets o) setIndex in
      if (i =? loopIndex1 s)%nat then Ok (fold_left (fun m p => mpush (sIndex1 (lspIntr p)) (mkDP (loopIndex2 s) (ipos (lspIntr p))) m) (slicePoints s) m)
      else Ok (fold_left (fun m p => mpush (sIndex2 (lspIntr p)) (mkDP (loopIndex1 s) (ipos (lspIntr p))) m) (slicePoints s) m)) ns m0 = Ok m /\
    goodTable (fun k _ => (k < length (vertexes (lpoly l)))%nat) m /\ countDiss m = (countDiss m0 + load1 (o_sets o) ns)%nat).
  { induction ns as [|n ns IH]; intros Hi' m0 G0; cbn [mfold]; [exists m0; split; [auto|]; split; [auto|]; unfold load1; cbn; lia|].
    destruct (Hlk i la n Ha (Hi' n (or_introl eq_refl))) as (s & Es & Hs). rewrite (proj2 (rget_inv _ _ _) Es). cbn [bind].
    destruct (Hsets s (nth_error_In _ _ Es)) as (l1 & l2 & E1 & E2 & Hp).
    assert (exists m1, (if (i =? loopIndex1 s)%nat then Ok (fold_left (fun m p => mpush (sIndex1 (lspIntr p)) (mkDP (loopIndex2 s) (ipos (lspIntr p))) m) (slicePoints s) m0)
      else Ok (fold_left (fun m p => mpush (sIndex2 (lspIntr p)) (mkDP (loopIndex1 s) (ipos (lspIntr p))) m) (slicePoints s) m0)) = Ok m1 /\
      goodTable (fun k _ => (k < length (vertexes (lpoly l)))%nat) m1 /\ countDiss m1 = (countDiss m0 + length (slicePoints s))%nat) as (m1 & Em & G1 & C1).
    { destruct (Nat.eqb_spec i (loopIndex1 s)) as [Ei|Ei]; (eexists; split; [reflexivity|]).
      - apply (pushes_good (fun k _ => (k < length (vertexes (lpoly l)))%nat) (fun p => sIndex1 (lspIntr p)) (fun p => mkDP (loopIndex2 s) (ipos (lspIntr p)))); [|exact G0]. assert (l1 = l) by congruence. subst l1. intros p Hp'. now apply Hp.
      - destruct Hs as [Hs|Hs]; [congruence|]. apply (pushes_good (fun k _ => (k < length (vertexes (lpoly l)))%nat) (fun p => sIndex2 (lspIntr p)) (fun p => mkDP (loopIndex1 s) (ipos (lspIntr p)))); [|exact G0]. assert (l2 = l) by congruence. subst l2. intros p Hp'. now apply Hp. }
    match goal with |- context [bind ?m _] => replace m with (Ok m1) by (symmetry; exact Em) end. cbn [bind].
    destruct (IH (fun x Hx => Hi' x (or_intror Hx)) m1 G1) as (m & E & G & C). exists m. split; [exact E|]. split; [exact G|]. rewrite C, C1. unfold load1. cbn [map]. change (list_sum (?a :: ?b)) with (a + list_sum b)%nat.
    assert (wt (o_sets o) n = length (slicePoints s)) by (unfold wt; rewrite Es; reflexivity). lia. }
  destruct (G la (fun x H => H) []) as (m & E & G' & C); [split; [constructor|intros k l0 []]|]. exists m. split; [exact E|]. split; [exact G'|]. rewrite C. reflexivity.
Qed.

Lemma cut_total i l la result : nth_error L i = Some l -> nth_error (o_lookup o) i = Some la ->
  exists m new, createSlicesFromLoop o input i D result = Ok (mkObj (o_ccw o) (o_cw o) (o_index o) (o_visited o) (o_sets o) (o_lookup o) m, result ++ new) /\ (length new <= load1 (o_sets o) la)%nat /\
    (forall s, In s new -> isClosed (dsPline s) = false /\ (2 <= length (vertexes (dsPline s)) <= length (vertexes (lpoly l)) + 3)%nat).
Proof.
  intros Hi Ha. unfold createSlicesFromLoop. assert (Eg : getOffsetLoop o i = Ok l) by (apply getLoop_nth; rewrite EL; exact Hi). rewrite Eg. cbn [bind].
  destruct (fill_total i l la Hi Ha) as (m0 & E0 & G0 & C0). rewrite E0. cbn [bind]. destruct (sort_total (lpoly l) m0 G0) as (m & Em & Cm). rewrite Em. cbn [bind].
  destruct (sort_good _ _ _ _ Em G0) as [Gm _]. set (valid := fun pt => pointOnOffsetValid input (parentLoopIndex l) pt D).
  assert (Hv : forall p, exists b, valid p = Ok b) by (intros p; destruct (valid_total input (parentLoopIndex l) p D Hin) as (b & E & _); eauto).
  assert (F : forall kls, incl kls m -> forall res, exists new, mfold (dissOne valid i (lpoly l) m) kls res = Ok (res ++ new) /\ (length new <= countDiss kls)%nat /\
    (forall s, In s new -> isClosed (dsPline s) = false /\ (2 <= length (vertexes (dsPline s)) <= length (vertexes (lpoly l)) + 3)%nat)).
  { induction kls as [|[k ps] kls IH]; intros Hk res; cbn [mfold]; [exists []; rewrite app_nil_r; split; [auto|]; split; [cbn; lia|intros s []]|].
    destruct (dissOne_total valid i (lpoly l) m res k ps Hv Gm (Hk _ (or_introl eq_refl))) as (n1 & E1 & L1 & H1). rewrite E1. cbn [bind].
    destruct (IH (fun x Hx => Hk x (or_intror Hx)) (res ++ n1)) as (n2 & E2 & L2 & H2). exists (n1 ++ n2). rewrite app_assoc. split; [exact E2|]. split.
    - rewrite app_length. unfold countDiss. cbn [map snd]. change (list_sum (?a :: ?b)) with (a + list_sum b)%nat. unfold countDiss in L2. lia.
    - intros s Hs. apply in_app_or in Hs. destruct Hs; auto. }
  destruct (F (map_order m)) with (res := result) as (new & E & Ln & Hn). { intros x Hx. apply (Permutation_in _ (order_perm _ m)). exact Hx. }
  match goal with |- context [bind ?m _] => replace m with (Ok (result ++ new)) by (symmetry; exact E) end. cbn [bind]. exists m, new. split; [reflexivity|]. split; [|exact Hn].
  rewrite (countDiss_perm _ _ (order_perm _ m)) in Ln. lia.
Qed.
End Cutting.

(** *** All loops *)

Lemma loops_same o o1 input D L : offsetLoops input D L -> createOffsetLoops o input D = Ok o1 -> loopsOf o1 = L.
Proof.
  intros HL E1. pose proof (offsets_exact _ _ _ _ E1) as HL1.
  destruct HL as [M1 I1], HL1 as [M2 I2]. fold (loopsOf o1) in M2, I2. rewrite <- M2 in M1. clear -M1 I1 I2. revert M1 I1 I2. generalize (loopsOf o1) as A. revert L. induction L as [|a L IH]; intros [|b A] M1 I1 I2; try discriminate; [reflexivity|].
  cbn [map] in M1. injection M1 as Ma Mb M1. f_equal; [|apply IH; auto; intros; [apply I1|apply I2]; now right]. pose proof (I1 a (or_introl eq_refl)) as Ia. pose proof (I2 b (or_introl eq_refl)) as Ib.
  rewrite Mb, Ib in Ia. injection Ia as Ia. destruct a, b; simpl in Ma, Mb, Ia; congruence.
Qed.

Lemma process_total o input D L m : loopsOf o = L -> (forall l, In l (ccwLoops input ++ cwLoops input) -> indexed l) -> (forall l, In l L -> (2 <= length (vertexes (lpoly l)) <= m)%nat) ->
  length (o_lookup o) = length L ->
  (forall s, In s (o_sets o) -> exists l1 l2, nth_error L (loopIndex1 s) = Some l1 /\ nth_error L (loopIndex2 s) = Some l2 /\
    forall p, In p (slicePoints s) -> (sIndex1 (lspIntr p) < length (vertexes (lpoly l1)))%nat /\ (sIndex2 (lspIntr p) < length (vertexes (lpoly l2)))%nat) ->
  (forall a la n, nth_error (o_lookup o) a = Some la -> In n la -> exists s, nth_error (o_sets o) n = Some s /\ (loopIndex1 s = a \/ loopIndex2 s = a)) ->
  exists o' r slices, mfold (processLoop input D) (seq 0 (length L)) (o, mkLoopSet [] [], []) = Ok (o', r, slices) /\ (length slices <= load (o_sets o) (o_lookup o))%nat /\
    (forall s, In s slices -> isClosed (dsPline s) = false /\ (2 <= length (vertexes (dsPline s)) <= m + 3)%nat).
Proof.
  intros EL Hin Hm Hlen Hsets Hlk.
  assert (F : forall suf pre, o_lookup o = pre ++ suf -> forall o1 r1 sl, loopsOf o1 = L -> o_sets o1 = o_sets o -> o_lookup o1 = o_lookup o -> (length sl <= load (o_sets o) pre)%nat ->
    (forall s, In s sl -> isClosed (dsPline s) = false /\ (2 <= length (vertexes (dsPline s)) <= m + 3)%nat) ->
    exists o' r slices, mfold (processLoop input D) (seq (length pre) (length suf)) (o1, r1, sl) = Ok (o', r, slices) /\ (length slices <= load (o_sets o) (pre ++ suf))%nat /\
    (forall s, In s slices -> isClosed (dsPline s) = false /\ (2 <= length (vertexes (dsPline s)) <= m + 3)%nat)).
  { induction suf as [|la suf IH]; intros pre Ep o1 r1 sl EL1 Es1 El1 Ln Hs; cbn [length seq mfold]; [rewrite app_nil_r; eauto 8|].
    assert (Ha : nth_error (o_lookup o1) (length pre) = Some la) by (rewrite El1, Ep, nth_error_app2, Nat.sub_diag by lia; reflexivity).
    assert (Hi : (length pre < length L)%nat) by (rewrite <- Hlen, Ep, app_length; cbn [length]; lia).
    destruct (nth_error L (length pre)) as [l|] eqn:El; [|apply nth_error_None in El; lia].
    assert (Esum : load (o_sets o) (pre ++ [la]) = (load (o_sets o) pre + load1 (o_sets o) la)%nat) by (unfold load; rewrite map_app, list_sum_app; cbn [map]; change (list_sum [load1 (o_sets o) la]) with (load1 (o_sets o) la + 0)%nat; lia).
    assert (N : exists o2 r2 sl2, processLoop input D (o1, r1, sl) (length pre) = Ok (o2, r2, sl2) /\ loopsOf o2 = L /\ o_sets o2 = o_sets o /\ o_lookup o2 = o_lookup o /\ (length sl2 <= load (o_sets o) (pre ++ [la]))%nat /\
      (forall s, In s sl2 -> isClosed (dsPline s) = false /\ (2 <= length (vertexes (dsPline s)) <= m + 3)%nat)).
    { unfold processLoop. rewrite (proj2 (rget_inv _ _ _) Ha). cbn [bind]. destruct (Nat.eqb_spec (length la) 0).
      - assert (Eg : getOffsetLoop o1 (length pre) = Ok l) by (apply getLoop_nth; rewrite EL1; exact El). rewrite Eg. cbn [bind]. pose proof (Hm l (nth_error_In _ _ El)) as Hml. rewrite vget_at by lia. cbn [bind].
        destruct (valid_total input (parentLoopIndex l) (pos (at_ (lpoly l) 0)) D Hin) as (b & Eb & _). rewrite Eb. cbn [bind]. destruct b; cbn [negb]; [destruct (_ <? _)%nat|]; do 3 eexists; (split; [reflexivity|]); repeat (split; [first [assumption|lia]|]); assumption.
      - rewrite <- El1 in Hlk. rewrite <- Es1 in Hsets, Hlk. destruct (cut_total o1 input D L EL1 Hin Hsets Hlk (length pre) l la sl El Ha) as (mm & new & E & Lnew & Hnew). rewrite E. cbn [bind].
        do 3 eexists. split; [reflexivity|]. split; [exact EL1|]. split; [exact Es1|]. split; [exact El1|]. split; [rewrite app_length; rewrite Es1 in Lnew; lia|].
        intros s Hs'. apply in_app_or in Hs'. destruct Hs' as [Hs'|Hs']; [auto|]. destruct (Hnew s Hs'). pose proof (Hm l (nth_error_In _ _ El)) as Hml. split; [auto|lia]. }
    destruct N as (o2 & r2 & sl2 & E2 & EL2 & Es2 & Elk2 & Ln2 & Hs2). rewrite E2. cbn [bind].
    destruct (IH (pre ++ [la])) with (o1 := o2) (r1 := r2) (sl := sl2) as (o' & r & slices & E & Lf & Hf); auto; [now rewrite <- app_assoc|].
    exists o', r, slices. rewrite app_length in E. cbn [length] in E. rewrite Nat.add_1_r in E. split; [exact E|]. rewrite <- app_assoc in Lf. split; [exact Lf|exact Hf]. }
  destruct (F (o_lookup o) [] eq_refl o (mkLoopSet [] []) [] EL eq_refl eq_refl) as (o' & r & slices & E & Lf & Hf); [cbn; lia|intros s []|].
  exists o', r, slices. rewrite Hlen in E. split; [exact E|]. split; [exact Lf|exact Hf].
Qed.

(** *** Stitching *)
Lemma chain_len slices ch c : (forall s, In s slices -> (1 <= length (vertexes s) <= S c)%nat) -> (length (chainVertexes slices ch) <= length ch * c)%nat.
Proof.
  intros H. unfold chainVertexes. induction ch as [|i ch IH]; [cbn; lia|]. cbn [flat_map length]. rewrite app_length. enough (length (removelast (vertexes (sliceAt slices i))) <= c)%nat by lia.
  unfold sliceAt. destruct (nth_in_or_default i slices (mkPline false [])) as [Hi|E].
  - specialize (H _ Hi). match goal with |- (length (removelast ?v) <= c)%nat => destruct (exists_last (l := v)) as (l & x & E) end; [intros E; rewrite E in H; cbn in H; lia|]. rewrite E, removelast_last. rewrite E, app_length in H. cbn [length] in H. lia.
  - rewrite E. cbn. lia.
Qed.

Lemma nodup_tail {X} (a b : list X) : NoDup (a ++ b) -> NoDup b.
Proof. induction a as [|x a IH]; [auto|]. cbn [app]. intros H. inversion H. auto. Qed.
Lemma nodup_head {X} (a b : list X) : NoDup (a ++ b) -> NoDup a.
Proof. induction a as [|x a IH]; [constructor|]. cbn [app]. intros H. inversion H as [|? ? Hx Hn]. constructor; [intros F; apply Hx, in_or_app; now left|auto]. Qed.
Lemma nodup_bound (l : list nat) n : NoDup l -> (forall i, In i l -> (i < n)%nat) -> (length l <= n)%nat.
Proof. intros N H. rewrite <- (seq_length n 0). apply NoDup_incl_length; [exact N|]. intros i Hi. apply in_seq. specialize (H i Hi). lia. Qed.

Lemma stitch_total slices c : (forall s, In s slices -> (1 <= length (vertexes s) <= S c)%nat) -> (1 <= c)%nat -> (Z.of_nat (length slices * c) <= 2 ^ 24)%Z ->
  exists st, stitchOrderedSlices slices stitchFirstAvailable sliceJoinThreshold = Ok st /\ forall p, In p st -> closedPline p /\ (Z.of_nat (length (vertexes p)) <= 2 ^ 24)%Z.
Proof.
  intros Hs Hc Hb. destruct (C34_stitch slices stitchFirstAvailable sliceJoinThreshold) as (chains & E & N & B & _ & Hp); [apply sjt_pos|nia|intros s Hx; specialize (Hs s Hx); lia|apply C34_selectors|].
  exists (flat_map (closedChain slices) chains). split; [exact E|]. intros p Hpin. split; [exact (Hp p Hpin)|]. apply in_flat_map in Hpin. destruct Hpin as (ch & Hch & Hpc). unfold closedChain in Hpc.
  destruct (_ <=? _)%nat; [|destruct Hpc]. destruct Hpc as [<-|[]]. cbn [vertexes]. pose proof (chain_len slices ch c Hs) as Hl.
  assert (length ch <= length slices)%nat.
  { apply nodup_bound; [|intros i Hi; apply B; apply in_concat; eauto]. apply in_split in Hch. destruct Hch as (c1 & c2 & ->). rewrite concat_app in N. cbn [concat] in N. apply nodup_tail in N. apply nodup_head in N. exact N. }
  nia.
Qed.

Lemma add_total st : (forall p, In p st -> closedPline p /\ (Z.of_nat (length (vertexes p)) <= 2 ^ 24)%Z) -> forall r, exists r', mfold addStitched st r = Ok r'.
Proof.
  induction st as [|p st IH]; intros H r; cbn [mfold]; [eauto|]. assert (exists r1, addStitched r p = Ok r1) as (r1 & E).
  { unfold addStitched. cbn [tabs tlit tltb ROps]. destruct (Rltb (Rabs (getArea p)) _) eqn:Ea; [eauto|]. destruct (H p (or_introl eq_refl)) as [Hc Hz]. destruct (area_index p Hc Hz) as (ix & Ex).
    - intros E0. apply Rltb_false in Ea. rewrite E0, Rabs_R0 in Ea. lra.
    - rewrite Ex. cbn [bind]. destruct (Rltb (getArea p) _); eauto. }
  rewrite E. cbn [bind]. apply IH. intros q Hq. apply H. now right.
Qed.

(** ParallelOffsetIslands::compute returns *)
Theorem C69_islands_return o input d L m :
  (forall l, In l (ccwLoops input ++ cwLoops input) -> indexed l /\ exists rs, parallelOffset (lpoly l) (Rabs d) false = Ok rs) ->
  offsetLoops input (Rabs d) L -> manageable L -> (forall l, In l L -> indexable (lpoly l) /\ (length (vertexes (lpoly l)) <= m)%nat) ->
  (2 * Z.of_nat (totalCuts L) * (Z.of_nat m + 2) <= 2 ^ 24)%Z ->
  exists o' r, compute o input d = Ok (o', r).
Proof.
  intros Hin HL HMg Hm Hb. unfold compute. cbn [tabs ROps]. destruct (offsets_total o input (Rabs d) L HL) as (o1 & E1); [intros l Hl; now apply Hin|]. rewrite E1. cbn [bind].
  pose proof (loops_same o o1 input (Rabs d) L HL E1) as EL1. rewrite total_length, EL1. destruct (Nat.eqb_spec (length L) 0) as [H0|H0]; [eauto|].
  destruct (loops_build L ltac:(lia) HMg) as (ix & Eb & _). rewrite <- EL1 in Eb. destruct (loopsIndex_total o1 ix Eb) as (o2 & E2 & Eix). rewrite E2. cbn [bind].
  apply index_same in E2. destruct E2 as [E2 E2']. assert (EL2 : loopsOf o2 = L) by (unfold loopsOf; rewrite E2, E2'; exact EL1). rewrite EL1 in Eb.
  destruct (collect_total o2) with (ix := ix) as (o3 & E3 & EL3 & _ & Hlen & Hsets & Hlk & Hload); rewrite ?EL2; auto; [|lia|].
  { intros l Hl. destruct (Hm l Hl). split; [auto|]. now apply HL. }
  rewrite E3. cbn [bind]. rewrite EL2 in *. rewrite total_length, EL3.
  assert (Hin' : forall l, In l (ccwLoops input ++ cwLoops input) -> indexed l) by (intros l Hl; now apply Hin).
  assert (Hsets' : forall s, In s (o_sets o3) -> exists l1 l2, nth_error L (loopIndex1 s) = Some l1 /\ nth_error L (loopIndex2 s) = Some l2 /\
    forall p, In p (slicePoints s) -> (sIndex1 (lspIntr p) < length (vertexes (lpoly l1)))%nat /\ (sIndex2 (lspIntr p) < length (vertexes (lpoly l2)))%nat).
  { intros s Hs. specialize (Hsets s Hs). unfold setIn in Hsets. rewrite EL2 in Hsets. exact Hsets. }
  destruct (process_total o3 input (Rabs d) L m EL3 Hin') as (o4 & r4 & sl & E4 & L4 & H4); auto.
  { intros l Hl. destruct (Hm l Hl) as [Hi Hlm]. split; [apply Hi|exact Hlm]. }
  match goal with |- context [bind ?m _] => replace m with (Ok (o4, r4, sl)) by (symmetry; exact E4) end. cbn [bind].
  destruct (stitch_total (map dsPline sl) (m + 2)) as (st & Es & Hst).
  - intros s Hs. apply in_map_iff in Hs. destruct Hs as (x & <- & Hx). destruct (H4 x Hx) as [_ Hx']. lia.
  - lia.
  - rewrite map_length. nia.
  - match goal with |- context [bind ?m _] => replace m with (Ok st) by (symmetry; exact Es) end. cbn [bind]. destruct (add_total st Hst r4) as (r5 & E5). rewrite E5. cbn [bind]. eauto.
Qed.

(** ... with conditions on the input loops under which parallelOffset returns (C40), and a limit on the number of vertices of the offset loops instead of the number of cuts *)
Definition loopVertexes (L : list offsetLoop) : nat := list_sum (map (fun l => length (vertexes (lpoly l))) L).

Lemma sum_const_le {X} (f : X -> nat) (c : nat) (g : X -> nat) l : (forall x, In x l -> (f x <= c * g x)%nat) -> (list_sum (map f l) <= c * list_sum (map g l))%nat.
Proof.
  induction l as [|x l IH]; intros H; [cbn; lia|]. cbn [map]. change (list_sum (?a :: ?b)) with (a + list_sum b)%nat. pose proof (H x (or_introl eq_refl)). specialize (IH (fun y Hy => H y (or_intror Hy))). lia.
Qed.

Lemma numbered_in {X} (l : list X) i x : In (i, x) (numbered l) -> In x l.
Proof. unfold numbered. intros H. now apply in_combine_r in H. Qed.

Lemma numbered_sum (l : list offsetLoop) : list_sum (map (fun il => length (vertexes (lpoly (snd il)))) (numbered l)) = loopVertexes l.
Proof.
  unfold loopVertexes, numbered. generalize 0%nat as s. induction l as [|x l IH]; intros s; [reflexivity|]. cbn [length seq List.combine map snd]. change (list_sum (?a :: ?b)) with (a + list_sum b)%nat. now rewrite IH.
Qed.

Lemma totalCuts_bound L : (forall l, In l L -> indexable (lpoly l) /\ createApproxSpatialIndex (lpoly l) = Ok (lindex l)) -> (totalCuts L <= 4 * loopVertexes L * loopVertexes L)%nat.
Proof.
  intros HL. unfold totalCuts. rewrite <- (numbered_sum L) at 2. apply sum_const_le. intros [i a] Ha. cbn [fst snd]. apply numbered_in in Ha.
  transitivity (4 * length (vertexes (lpoly a)) * list_sum (map (fun il => length (vertexes (lpoly (snd il)))) (numbered L)))%nat; [|rewrite numbered_sum; lia]. apply sum_const_le. intros [j b] Hb. cbn [fst snd].
  destruct (i =? j)%nat; [lia|]. unfold cutsBetween. destruct (HL a Ha) as [Ia Xa]. destruct (find_ok (lpoly a) (lpoly b) (lindex a) Ia Xa) as (xs & cs & E & _ & _ & Lx & Lc). rewrite E. lia.
Qed.

Lemma vertexes_in L l : In l L -> (length (vertexes (lpoly l)) <= loopVertexes L)%nat.
Proof. intros H. apply in_split in H. destruct H as (a & b & ->). unfold loopVertexes. rewrite map_app, list_sum_app. cbn [map]. change (list_sum (?x :: ?y)) with (x + list_sum y)%nat. lia. Qed.

Corollary C69_small_islands o input d L :
  (forall l, In l (ccwLoops input ++ cwLoops input) -> indexed l /\ (48 * Z.of_nat (length (vertexes (lpoly l))) * Z.of_nat (length (vertexes (lpoly l))) <= 2 ^ 24)%Z /\
     forall raw, createRawOffsetPline (lpoly l) (Rabs d) = Ok raw -> spread raw) ->
  offsetLoops input (Rabs d) L -> manageable L -> (forall l, In l L -> indexable (lpoly l)) -> (loopVertexes L <= 127)%nat ->
  exists o' r, compute o input d = Ok (o', r).
Proof.
  intros Hin HL HMg Hix Hn. apply (C69_islands_return o input d L (loopVertexes L)); auto.
  - intros l Hl. destruct (Hin l Hl) as (H1 & H2 & H3). split; [exact H1|]. apply C40_returns; auto. apply H1.
  - intros l Hl. split; [auto|]. now apply vertexes_in.
  - pose proof (totalCuts_bound L) as B. specialize (B (fun l Hl => conj (Hix l Hl) (proj2 HL l Hl))). nia.
Qed.
End Total.
