(** * C40, C48: parallelOffset returns, and its vertices keep their distance (exact reals) *)
From Coq Require Import ZArith Reals Lra Lia List Bool Arith Permutation Sorted.
From Verif Require Import Base Num MathUtils PlineSegment SpatialIndex IndexTree IndexQuery PropsIndex Polyline Intersects Combine Offset StdLaws RGeom Spec PropsPolyline PropsPlineIndex PropsFindIntr PropsSelfIntr PropsCoincident PropsSlices PropsStitch PropsCombine PropsRegion PropsExtents PropsBoolean PropsOffset PropsOffsetStitch PropsOffsetSlices PropsRawOffset PropsParallel.
Import ListNotations.
Open Scope R_scope.

(** every vertex of a stitched polyline is a vertex of a slice (any scalar implementation) *)
Section From.
Context {RO : RealOps} {SL : StdLib} (slices : list openSlice).
Definition fromSlices (p : polyline) : Prop := forall v, In v (vertexes p) -> exists s, In s slices /\ In v (vertexes (slPline s)).

Lemma in_removelast {A} (l : list A) x : In x (removelast l) -> In x l.
Proof.
  intros H. destruct l as [|a l]; [destruct H|]. destruct (exists_last (l := a :: l) ltac:(discriminate)) as (l' & y & E). rewrite E in *.
  rewrite removelast_app in H by discriminate. cbn [removelast] in H. rewrite app_nil_r in H. apply in_or_app. now left.
Qed.

Lemma stitchLoop_from closed mi d ix initial : forall fuel visited result pre cur visited' result',
  stitchOffsetLoop fuel slices closed mi d ix initial visited result pre cur = Ok (visited', result') ->
  fromSlices (mkPline false pre) -> List.Forall fromSlices result -> List.Forall fromSlices result'.
Proof.
  induction fuel as [|fuel IH]; intros visited result pre cur visited' result' E Hp H; [discriminate|]. cbn [stitchOffsetLoop] in E.
  apply bind_inv in E. destruct E as (s & Es & E). apply bind_inv in E. destruct E as (ev & _ & E). apply bind_inv in E. destruct E as (q & _ & E). apply bind_inv in E. destruct E as (q2 & _ & E).
  assert (Hcur : forall v, In v (pre ++ vertexes (slPline s)) -> exists s, In s slices /\ In v (vertexes (slPline s))).
  { intros v Hv. apply in_app_or in Hv. destruct Hv as [Hv|Hv]; [now apply Hp|]. exists s. split; [|auto]. apply rget_inv in Es. now apply nth_error_In in Es. }
  destruct (std_sort _ q2) as [|nx rest].
  - destruct (Nat.ltb_spec 1 (length (pre ++ vertexes (slPline s)))) as [Hl|_]; [|injection E as <- <-; auto].
    apply bind_inv in E. destruct E as (a & _ & E). apply bind_inv in E. destruct E as (b & _ & E).
    destruct (_ && _); injection E as <- <-; apply Forall_app; (split; [auto|]); (constructor; [|constructor]); intros v Hv; cbn [vertexes] in Hv; apply Hcur; [now apply in_removelast|auto].
  - apply bind_inv in E. destruct E as (v & _ & E). eapply IH; [exact E| |auto]. intros w Hw. cbn [vertexes] in Hw. apply Hcur. now apply in_removelast.
Qed.

Lemma stitch_from closed mi d r : stitchOffsetSlicesTogether slices closed mi d = Ok r -> List.Forall fromSlices r.
Proof.
  intros E. unfold stitchOffsetSlicesTogether in E. destruct slices as [|s [|s2 rest]] eqn:Esl.
  - injection E as <-. constructor.
  - assert (Hs : fromSlices (slPline s)) by (intros v Hv; exists s; rewrite Esl; split; [now left|auto]).
    destruct closed; [|injection E as <-; constructor; [auto|constructor]].
    apply bind_inv in E. destruct E as (a & _ & E). apply bind_inv in E. destruct E as (b & _ & E). destruct (fuzzyEqual _ _ _); [|injection E as <-; constructor; [auto|constructor]].
    apply bind_inv in E. destruct E as (p & Ep & E). injection E as <-. constructor; [|constructor]. unfold popBack in Ep. destruct (rev (vertexes (slPline s))) as [|x t] eqn:Er; [discriminate|]. injection Ep as <-.
    intros v Hv. cbn [setClosed vertexes] in Hv. apply Hs. apply in_rev. rewrite Er. right. now apply in_rev.
  - rewrite <- Esl in *. apply bind_inv in E. destruct E as (ix & _ & E). apply bind_inv in E. destruct E as ([vis res] & E1 & E). injection E as <-.
    apply (mfold_inv _ (fun st => List.Forall fromSlices (snd st))) in E1; [exact E1| |constructor].
    intros [v0 r0] i [v1 r1] _ Es H0. cbn [snd] in *. unfold stitchOffsetFrom in Es. apply bind_inv in Es. destruct Es as (vis0 & _ & Es). destruct vis0; [injection Es as <- <-; auto|].
    apply bind_inv in Es. destruct Es as (v2 & _ & Es). apply bind_inv in Es. destruct Es as (s' & _ & Es). apply bind_inv in Es. destruct Es as (w & _ & Es). eapply stitchLoop_from; [exact Es| |auto]. intros v [].
Qed.
End From.

Section Total.
Context {SL : StdLib} {SLaws : StdLaws SL}.

Lemma visitor_ok {A} (f : res A -> nat -> bool * res A) l : (forall st i, In i l -> exists a, snd (f st i) = Ok a) -> forall a0, exists a, snd (runVisitor f (Ok a0) l) = Ok a.
Proof.
  induction l as [|i l IH]; intros H a0; [exists a0; reflexivity|]. cbn [runVisitor]. destruct (H (Ok a0) i (or_introl eq_refl)) as (a & Ea). destruct (f (Ok a0) i) as [[] st']; cbn [snd] in *; [|eauto].
  subst st'. apply IH. intros; apply H; now right.
Qed.

Lemma tests_ok pl offset : indexable pl -> exists ix, createApproxSpatialIndex pl = Ok ix /\ okTests (mkOrigTests pl offset ix).
Proof.
  intros Hix. assert (Hn : (2 <= length (vertexes pl))%nat) by apply Hix. destruct (pline_index pl Hix) as (ix & Eix & Hq & _). exists ix. split; [exact Eix|].
  split; cbn [mkOrigTests ptValid hitsOrig].
  - intros p. unfold pointValidForOffset. rcbn. set (D := Rabs offset - 1 / 10000).
    destruct (Hq (mkAABB (vx p) (vy p) (vx p) (vy p)) D) as (l & _ & Hl & Hv). cbn [xMin yMin xMax yMax] in Hv.
    match goal with |- context [visitQuery _ _ _ _ _ _ ?vis _] => set (visitor := vis) end.
    match goal with |- context [bind ?m _] => assert (E : m = Ok (snd (runVisitor visitor (Ok true) l))) by exact (Hv (res bool) visitor (Ok true)); rewrite E end. cbn [bind].
    apply visitor_ok. intros st i Hi. apply Hl in Hi. destruct Hi as [Hi _]. destruct (seg_in_range pl i Hn Hi) as [H1 H2]. unfold visitor, size. fold (nextI pl i). rewrite !at_get by auto. cbn [bind snd]. eauto.
  - intros v w. unfold intersectsOrigPline. rcbn. destruct (Hq (createFastApproxBoundingBox v w) 0) as (l & _ & Hl & Hv). rewrite !Rminus_0_r, !Rplus_0_r in Hv.
    match goal with |- context [visitQuery _ _ _ _ _ _ ?vis _] => set (visitor := vis) end.
    match goal with |- context [bind ?m _] => assert (E : m = Ok (snd (runVisitor visitor (Ok false) l))) by exact (Hv (res bool) visitor (Ok false)); rewrite E end. cbn [bind].
    apply visitor_ok. intros st i Hi. apply Hl in Hi. destruct Hi as [Hi _]. destruct (seg_in_range pl i Hn Hi) as [H1 H2]. unfold visitor, size. fold (nextI pl i). rewrite !at_get by auto. cbn [bind snd]. eauto.
Qed.

Lemma two_points v1 v2 u1 u2 (f : vec -> bool) : (length (filter f (crossPoints v1 v2 u1 u2 ++ flat_map (fun pq => [fst pq; snd pq]) (overlapsOf v1 v2 u1 u2))) <= 2)%nat.
Proof.
  match goal with |- (length (filter ?g ?l) <= 2)%nat => pose proof (filter_len g l) as Fl; assert (length l <= 2)%nat end; [|lia].
  unfold crossPoints, overlapsOf. destruct (intrPlineSegs _ _ _ _); cbn; lia.
Qed.

(** all self intersects: found without error, between segments that exist, not too many *)
Lemma self_ok raw : indexable raw -> exists ix sis, createApproxSpatialIndex raw = Ok ix /\ allSelfIntersects defaultNodeSize raw [] ix = Ok sis /\
  (forall x, In x sis -> (sIndex1 x < segCount raw)%nat /\ (sIndex2 x < segCount raw)%nat) /\
  (length sis <= 2 * (length (vertexes raw) * length (vertexes raw)) + 2 * length (vertexes raw))%nat.
Proof.
  intros Hix. assert (Hn : (2 <= length (vertexes raw))%nat) by apply Hix. pose proof (segCount_le raw Hn) as Hs. unfold allSelfIntersects.
  destruct (le_lt_dec 3 (length (vertexes raw))) as [H3|H3].
  - destruct (C46_consecutive_pairs raw [] H3) as (E1 & N1 & C1). destruct (C31_each_pair_once raw (flat_map (consecutivePoints raw) (consecutivePairs raw)) H3 Hix) as (ix & tested & Eix & E2 & N2 & C2 & _).
    exists ix. eexists. split; [exact Eix|]. split.
    { match goal with |- context [bind ?m _] => assert (Em : m = Ok (flat_map (consecutivePoints raw) (consecutivePairs raw))) by exact E1; rewrite Em end. cbn [bind]. exact E2. }
    split.
    + intros x Hx. apply in_app_or in Hx. destruct Hx as [Hx|Hx]; apply in_flat_map in Hx; destruct Hx as ([a b] & Hab & Hx).
      * apply C1 in Hab. unfold consecutivePoints in Hx. apply in_map_iff in Hx. destruct Hx as (p & <- & _). cbn [sIndex1 sIndex2]. lia.
      * apply C2 in Hab. destruct Hab as [(Ha & Hb & _) _]. unfold selfPoints in Hx. apply in_map_iff in Hx. destruct Hx as (p & <- & _). cbn [sIndex1 sIndex2]. auto.
    + rewrite app_length.
      assert (L1 : (length (flat_map (consecutivePoints raw) (consecutivePairs raw)) <= 2 * length (consecutivePairs raw))%nat).
      { apply flat_map_len. intros [a b] _. unfold consecutivePoints. rewrite map_length. destruct (fuzzyEqual _ _ _); [cbn; lia|]. rewrite app_length, map_length.
        match goal with |- (length (filter ?g ?l) + _ <= 2)%nat => pose proof (filter_len g l) as Fl; revert Fl; generalize (length (filter g l)) end.
        unfold crossPoints, overlapsOf. destruct (intrPlineSegs _ _ _ _); cbn; lia. }
      assert (L2 : (length (flat_map (selfPoints raw) tested) <= 2 * length tested)%nat).
      { apply flat_map_len. intros [a b] _. unfold selfPoints. rewrite map_length. apply two_points. }
      assert (L3 : (length (consecutivePairs raw) <= length (vertexes raw))%nat) by (unfold consecutivePairs; rewrite map_length; destruct (isClosed raw); rewrite seq_length; lia).
      assert (L4 : (length tested <= length (vertexes raw) * length (vertexes raw))%nat).
      { apply pairs_bound; [auto|]. intros a b H. apply C2 in H. destruct H as [(Ha & Hb & _) _]. lia. }
      lia.
  - destruct (pline_index raw Hix) as (ix & Eix & _). exists ix. destruct (C46_small raw [] H3) as [[E _]|(E & Hc & H2 & _)].
    + exists []. split; [exact Eix|]. split; [|split; [intros x []|cbn; lia]].
      match goal with |- context [bind ?m _] => assert (Em : m = Ok []) by exact E; rewrite Em end. cbn [bind]. now apply C31_small.
    + eexists. split; [exact Eix|]. split; [match goal with |- context [bind ?m _] => assert (Em : m = Ok ([] ++ [mkIntr 0 1 (pos (at_ raw 1)); mkIntr 1 0 (pos (at_ raw 0))])) by exact E; rewrite Em end; cbn [bind]; apply C31_small; auto|].
      rewrite segCount_eq, Hc by auto. split; [|cbn [length app]; rewrite H2; cbn; lia]. intros x [<-|[<-|[]]]; cbn [sIndex1 sIndex2]; lia.
Qed.

Lemma circle_hits raw r c out i : isClosed raw = false -> (2 <= length (vertexes raw))%nat -> (i < segCount raw)%nat ->
  exists new, circleIntrSeg raw r c out i = Ok (out ++ new) /\ (forall k p, In (k, p) new -> k = i) /\ (length new <= 2)%nat.
Proof.
  intros Hc Hn Hi. rewrite segCount_eq, Hc in Hi by auto. unfold circleIntrSeg. rewrite !at_get by lia. cbn [bind].
  assert (E0 : forall l : list (nat * vec), l ++ [] = l) by (intros; apply app_nil_r).
  destruct (bulgeIsZero (at_ raw i)).
  - destruct (intrLineSeg2Circle2 _ _ _ _) as [|t|t t'].
    + exists []. rewrite E0. split; [reflexivity|]. split; [intros k p []|cbn; lia].
    + eexists. split; [reflexivity|]. destruct (_ && _); cbn; (split; [|lia]); intros k p H; [|destruct H]. destruct H as [H|[]]. congruence.
    + eexists. split; [reflexivity|]. repeat match goal with |- context [if ?b then [_] else []] => destruct b end; cbn; (split; [|lia]); intros k p H; repeat (destruct H as [H|H]; [congruence|]); destruct H.
  - destruct (intrCircle2Circle2 _ _ _ _) as [|p|p q|].
    + exists []. rewrite E0. split; [reflexivity|]. split; [intros k p []|cbn; lia].
    + eexists. split; [reflexivity|]. destruct (_ && _); cbn; (split; [|lia]); intros k p' H; [|destruct H]. destruct H as [H|[]]. congruence.
    + eexists. split; [reflexivity|]. repeat match goal with |- context [if ?b then [_] else []] => destruct b end; cbn; (split; [|lia]); intros k p' H; repeat (destruct H as [H|H]; [congruence|]); destruct H.
    + exists []. rewrite E0. split; [reflexivity|]. split; [intros k p []|cbn; lia].
Qed.

Lemma circle_ok raw offset c ix out : indexable raw -> isClosed raw = false -> createApproxSpatialIndex raw = Ok ix ->
  exists new, offsetCircleIntersectsWithPline raw offset c ix out = Ok (out ++ new) /\ (forall k p, In (k, p) new -> (k < segCount raw)%nat) /\ (length new <= 2 * length (vertexes raw))%nat.
Proof.
  intros Hix Hc Eix. assert (Hn : (2 <= length (vertexes raw))%nat) by apply Hix. destruct (pline_index raw Hix) as (ix' & Eix' & Hq & _). assert (ix' = ix) by congruence. subst ix'.
  destruct (Hq (mkAABB (vx c) (vy c) (vx c) (vy c)) (Rabs offset)) as (l & Nl & Hl & Hv). cbn [xMin yMin xMax yMax] in Hv.
  unfold offsetCircleIntersectsWithPline.
  assert (Eq : query defaultNodeSize ix (Fin (vx c - Rabs offset)) (Fin (vy c - Rabs offset)) (Fin (vx c + Rabs offset)) (Fin (vy c + Rabs offset)) [] = Ok l).
  { unfold query. rewrite Hv. rewrite (runVisitor_true (fun rs i => rs ++ [i])). cbn [snd]. f_equal.
    assert (G : forall (l a : list nat), fold_left (fun rs i => rs ++ [i]) l a = a ++ l).
    { clear. induction l as [|x l IH]; intros a; cbn [fold_left]; [now rewrite app_nil_r|]. rewrite IH. now rewrite <- app_assoc. }
    now rewrite G. }
  match goal with |- context [bind ?m _] => assert (E : m = Ok l) by exact Eq; rewrite E end. cbn [bind]. clear E.
  assert (G : forall l out, (forall i, In i l -> (i < segCount raw)%nat) -> exists new, mfold (circleIntrSeg raw (tabs offset) c) l out = Ok (out ++ new) /\ (forall k p, In (k, p) new -> (k < segCount raw)%nat) /\ (length new <= 2 * length l)%nat).
  { clear -Hc Hn. induction l as [|i l IH]; intros out H.
    - exists []. rewrite app_nil_r. split; [reflexivity|]. split; [intros k p []|cbn; lia].
    - cbn [mfold]. destruct (circle_hits raw (tabs offset) c out i Hc Hn (H i (or_introl eq_refl))) as (n1 & -> & K1 & L1). cbn [bind].
      destruct (IH (out ++ n1) (fun j Hj => H j (or_intror Hj))) as (n2 & -> & K2 & L2). exists (n1 ++ n2). rewrite app_assoc. split; [reflexivity|].
      split; [|rewrite app_length; cbn [length]; lia]. intros k p Hkp. apply in_app_or in Hkp. destruct Hkp as [Hkp|Hkp]; [|eauto]. apply K1 in Hkp. subst k. apply H. now left. }
  destruct (G l out ltac:(intros i Hi; now apply Hl in Hi)) as (new & E & K & L). exists new. split; [exact E|]. split; [exact K|].
  pose proof (segCount_le raw Hn). assert (length l <= length (seq 0 (segCount raw)))%nat by (apply NoDup_incl_length; [auto|intros i Hi; apply Hl in Hi; apply in_seq; lia]). rewrite seq_length in *. lia.
Qed.

(** building the tables of cut positions *)
Lemma table_self n sis : (forall x, In x sis -> (sIndex1 x < n)%nat /\ (sIndex2 x < n)%nat) -> forall m, okTable m n ->
  let m' := fold_left (fun m si => mpush (sIndex2 si) (ipos si) (mpush (sIndex1 si) (ipos si) m)) sis m in
  okTable m' n /\ length (concat (map snd m')) = (length (concat (map snd m)) + 2 * length sis)%nat.
Proof.
  induction sis as [|x sis IH]; intros H m Hm; cbn [fold_left length].
  - split; [auto|]. lia.
  - destruct (H x (or_introl eq_refl)) as [H1 H2]. destruct (okTable_mpush m n (sIndex1 x) (ipos x) Hm H1) as [Ha La]. destruct (okTable_mpush _ n (sIndex2 x) (ipos x) Ha H2) as [Hb Lb].
    destruct (IH (fun y Hy => H y (or_intror Hy)) _ Hb) as (A & B). cbv zeta. split; [exact A|]. lia.
Qed.

Lemma table_sorted {X} (f : vlookup -> X -> vlookup) (k : nat) n (l : list X) :
  (forall x m, In x l -> sortedTable m n -> sortedTable (f m x) n /\ length (concat (map snd (f m x))) = (length (concat (map snd m)) + k)%nat) ->
  forall m, sortedTable m n -> sortedTable (fold_left f l m) n /\ length (concat (map snd (fold_left f l m))) = (length (concat (map snd m)) + k * length l)%nat.
Proof.
  induction l as [|x l IH]; intros H m Hm; cbn [fold_left length]; [split; [auto|lia]|].
  destruct (H x m (or_introl eq_refl) Hm) as [Ha La]. destruct (IH (fun y m0 Hy => H y m0 (or_intror Hy)) _ Ha) as [A B]. split; [exact A|lia].
Qed.

Definition wholeSlice (raw : polyline) (close : bool) : openSlice :=
  mkOSl None (mkPline false (vertexes raw ++ if close then [setBulge (at_ raw 0) 0] else [])).

(** cutting a closed raw offset at its self intersects *)
Lemma slices_ok orig raw offset : indexable orig -> (length (vertexes raw) < 2)%nat \/ indexable raw ->
  exists ix sls, createApproxSpatialIndex orig = Ok ix /\ slicesFromRawOffset orig raw offset = Ok sls /\
    (length sls <= 4 * (length (vertexes raw) * length (vertexes raw)) + 4 * length (vertexes raw) + 1)%nat /\
    ((sls = [wholeSlice raw true] /\ (2 <= length (vertexes raw))%nat /\ accepted (mkOrigTests orig offset ix) (pos (at_ raw 0))) \/
     List.Forall (goodOffsetSlice (mkOrigTests orig offset ix) (length (vertexes raw))) sls).
Proof.
  intros Ho Hr. destruct (tests_ok orig offset Ho) as (ix & Eix & Hts). exists ix. unfold slicesFromRawOffset, size.
  destruct (Nat.ltb_spec (length (vertexes raw)) 2) as [|Hn]; [exists []; split; [auto|]; split; [reflexivity|]; split; [cbn; lia|right; constructor]|].
  destruct Hr as [Hr|Hr]; [lia|]. destruct (self_ok raw Hr) as (rix & sis & Erix & Esis & Hsis & Lsis). rewrite Eix, Erix. cbn [bind].
  match goal with |- context [bind ?m _] => assert (E : m = Ok sis) by exact Esis; rewrite E; clear E end. cbn [bind].
  pose proof (segCount_le raw Hn) as Hsc. set (ts := mkOrigTests orig offset ix) in *.
  destruct (Nat.eqb_spec (length sis) 0) as [E0|E0].
  - rewrite at_get by lia. cbn [bind]. destruct (proj1 Hts (pos (at_ raw 0))) as (b & Eb). rewrite Eb. cbn [bind]. destruct b; cbn [negb].
    + unfold wholeRaw. rewrite at_get by lia. cbn [bind]. eexists. split; [auto|]. split; [reflexivity|]. split; [cbn; lia|]. left. split; [unfold wholeSlice; rcbn; reflexivity|]. split; [lia|exact Eb].
    + exists []. split; [auto|]. split; [reflexivity|]. split; [cbn; lia|right; constructor].
  - destruct (table_self (length (vertexes raw)) sis ltac:(intros x Hx; apply Hsis in Hx; lia) [] ltac:(split; [constructor|intros k l []])) as (Ht & Lt). cbv zeta in Ht, Lt.
    match goal with |- context [sortVLookup raw ?m0] => set (m := m0) in * end.
    destruct (sortV_ok raw m (proj2 Ht)) as (m' & Em & K & I & L). rewrite Em. cbn [bind].
    assert (Ht' : okTable m' (length (vertexes raw))) by (split; [rewrite K; apply Ht|intros k l Hkl; apply I in Hkl; tauto]).
    destruct (slice_fold_ok ts raw true true m' Hts Ht' (map_order m') [] ltac:(intros kv Hkv; eapply Permutation_in; [apply order_perm|exact Hkv])) as (new & E & Hnew & Lnew).
    cbn [app] in E. rewrite E. eexists. split; [auto|]. split; [reflexivity|]. split; [|right; exact Hnew].
    assert (Lp : length (concat (map snd (map_order m'))) = length (concat (map snd m'))).
    { assert (P : Permutation (map snd (map_order m')) (map snd m')) by (apply Permutation_map, order_perm). clear -P.
      induction P; cbn [concat]; rewrite ?app_length; lia. }
    cbn [map concat length] in Lt. lia.
Qed.

Lemma find_ok A B ix : indexable A -> createApproxSpatialIndex A = Ok ix -> exists intrs coincs, findIntersects defaultNodeSize A B ix [] [] = Ok (intrs, coincs) /\
  (forall x, In x intrs -> (sIndex1 x < segCount A)%nat) /\ (forall x, In x coincs -> (cIndex1 x < segCount A)%nat) /\
  (length intrs <= 2 * (length (vertexes A) * length (vertexes B)))%nat /\ (length coincs <= length (vertexes A) * length (vertexes B))%nat.
Proof.
  intros HA Eix. pose proof (proj1 HA) as HA2. destruct (le_lt_dec 2 (length (vertexes B))) as [HB|HB].
  2:{ exists [], []. split; [|split; [intros x []|split; [intros x []|cbn; lia]]]. unfold findIntersects, visitSegIndices, size. destruct (Nat.ltb_spec (length (vertexes B)) 2); [reflexivity|lia]. }
  destruct (C30_find_intersects A B HA HB) as (ix' & tested & intrs & coincs & Eix' & Ef & Hnd & Ht & Ec & keep & Ei & _). assert (ix' = ix) by congruence. subst ix'.
  destruct (C30_sound A B ix intrs coincs HA HB Eix Ef) as [Si Sc]. exists intrs, coincs. split; [exact Ef|].
  split; [intros x Hx; now apply Si in Hx|]. split; [intros x Hx; now apply Sc in Hx|].
  pose proof (segCount_le A HA2) as LA. pose proof (segCount_le B HB) as LB.
  assert (Lt : (length tested <= length (vertexes A) * length (vertexes B))%nat).
  { apply pairs_bound; [auto|]. intros a b H. apply Ht in H. lia. }
  split.
  - rewrite Ei. pose proof (filter_len keep (flat_map (pairPoints A B) tested)). pose proof (flat_map_len (pairPoints A B) 2 tested) as F.
    assert (length (flat_map (pairPoints A B) tested) <= 2 * length tested)%nat; [|lia]. apply F. intros [a b] _. unfold pairPoints. rewrite map_length.
    match goal with |- (length (filter ?f ?l) <= 2)%nat => pose proof (filter_len f l) as Fl; assert (length l <= 2)%nat end; [|lia].
    unfold crossPoints. destruct (intrPlineSegs _ _ _ _); cbn; lia.
  - rewrite Ec. pose proof (flat_map_len (pairCoinc A B) 1 tested) as F. assert (length (flat_map (pairCoinc A B) tested) <= 1 * length tested)%nat; [|lia]. apply F.
    intros [a b] _. unfold pairCoinc. rewrite map_length. unfold overlapsOf. destruct (intrPlineSegs _ _ _ _); cbn; lia.
Qed.

(** cutting a raw offset at its self intersects, its intersects with the dual offset and the end circles *)
Lemma dual_ok orig raw dual offset : indexable orig -> (length (vertexes raw) < 2)%nat \/ (indexable raw /\ isClosed raw = isClosed orig) ->
  exists ix sls, createApproxSpatialIndex orig = Ok ix /\ dualSliceAtIntersectsForOffset orig raw dual offset = Ok sls /\
    (length sls <= 4 * (length (vertexes raw) * length (vertexes raw)) + 4 * (length (vertexes raw) * length (vertexes dual)) + 8 * length (vertexes raw) + 1)%nat /\
    ((sls = [wholeSlice raw (isClosed orig)] /\ (2 <= length (vertexes raw))%nat /\ accepted (mkOrigTests orig offset ix) (pos (at_ raw 0))) \/
     List.Forall (goodOffsetSlice (mkOrigTests orig offset ix) (length (vertexes raw))) sls \/
     (isClosed orig = false /\ exists s0 rest, sls = mkOSl (Some 0%nat) s0 :: rest /\ isClosed s0 = false /\ vertexes s0 <> [] /\
        List.Forall (goodOffsetSlice (mkOrigTests orig offset ix) (length (vertexes raw))) rest)).
Proof.
  intros Ho Hr. destruct (tests_ok orig offset Ho) as (ix & Eix & Hts). exists ix. unfold dualSliceAtIntersectsForOffset, size.
  destruct (Nat.ltb_spec (length (vertexes raw)) 2) as [|Hn]; [exists []; split; [auto|]; split; [reflexivity|]; split; [cbn; lia|right; left; constructor]|].
  destruct Hr as [Hr|[Hr Hcl]]; [lia|]. destruct (self_ok raw Hr) as (rix & sis & Erix & Esis & Hsis & Lsis). rewrite Eix, Erix. cbn [bind].
  match goal with |- context [bind ?m _] => assert (E : m = Ok sis) by exact Esis; rewrite E; clear E end. cbn [bind].
  destruct (find_ok raw dual rix Hr Erix) as (di & dc & Efi & Hdi & Hdc & Ldi & Ldc).
  match goal with |- context [bind ?m _] => assert (E : m = Ok (di, dc)) by exact Efi; rewrite E; clear E end. cbn [bind].
  match goal with |- context [bind ?m _] => assert (exists circ, m = Ok circ /\ (forall k p, In (k, p) circ -> (k < segCount raw)%nat) /\ (length circ <= 4 * length (vertexes raw))%nat) as (circ & -> & Hci & Lci) end.
  { destruct (isClosed orig) eqn:Ec; cbn [negb]; [exists []; split; [reflexivity|]; split; [intros k p []|cbn; lia]|].
    assert (Hon : (2 <= length (vertexes orig))%nat) by apply Ho. rewrite at_get by lia. cbn [bind].
    destruct (get_last orig (ne_len orig ltac:(lia))) as (? & w & _ & -> & _). cbn [bind].
    destruct (circle_ok raw offset (pos (at_ orig 0)) rix [] Hr Hcl Erix) as (c1 & -> & K1 & L1). cbn [bind app].
    destruct (circle_ok raw offset (pos w) rix c1 Hr Hcl Erix) as (c2 & -> & K2 & L2). eexists. split; [reflexivity|].
    split; [|rewrite app_length; lia]. intros k p H. apply in_app_or in H. destruct H; eauto. }
  cbn [bind]. pose proof (segCount_le raw Hn) as Hsc. set (ts := mkOrigTests orig offset ix) in *.
  set (m1 := fold_left (fun m '(k, p) => mpushSorted k p m) circ []).
  set (m2 := fold_left (fun m si => mpushSorted (sIndex2 si) (ipos si) (mpushSorted (sIndex1 si) (ipos si) m)) sis m1).
  set (m3 := fold_left (fun m si => mpushSorted (sIndex1 si) (ipos si) m) di m2).
  set (m := fold_left (fun m ci => mpushSorted (cIndex1 ci) (cpoint2 ci) (mpushSorted (cIndex1 ci) (cpoint1 ci) m)) dc m3).
  destruct (table_sorted (fun m '(k, p) => mpushSorted k p m) 1 (segCount raw) circ) with (m := @nil (nat * list vec)) as [T1 L1].
  { intros [k p] m0 Hin Hm0. destruct (sortedTable_push m0 (segCount raw) k p Hm0 (Hci _ _ Hin)). split; [auto|lia]. }
  { split; [constructor|intros k l []]. }
  change (sortedTable m1 (segCount raw)) in T1. change (length (concat (map snd m1)) = (length (concat (map snd (@nil (nat * list vec)))) + 1 * length circ)%nat) in L1.
  destruct (table_sorted (fun m si => mpushSorted (sIndex2 si) (ipos si) (mpushSorted (sIndex1 si) (ipos si) m)) 2 (segCount raw) sis) with (m := m1) as [T2 L2]; [|exact T1|].
  { intros x m0 Hin Hm0. destruct (Hsis x Hin) as [I1 I2]. destruct (sortedTable_push m0 (segCount raw) _ (ipos x) Hm0 I1) as [A LA]. destruct (sortedTable_push _ (segCount raw) _ (ipos x) A I2). split; [auto|lia]. }
  change (sortedTable m2 (segCount raw)) in T2. change (length (concat (map snd m2)) = (length (concat (map snd m1)) + 2 * length sis)%nat) in L2.
  destruct (table_sorted (fun m si => mpushSorted (sIndex1 si) (ipos si) m) 1 (segCount raw) di) with (m := m2) as [T3 L3]; [|exact T2|].
  { intros x m0 Hin Hm0. destruct (sortedTable_push m0 (segCount raw) _ (ipos x) Hm0 (Hdi _ Hin)). split; [auto|lia]. }
  change (sortedTable m3 (segCount raw)) in T3. change (length (concat (map snd m3)) = (length (concat (map snd m2)) + 1 * length di)%nat) in L3.
  destruct (table_sorted (fun m ci => mpushSorted (cIndex1 ci) (cpoint2 ci) (mpushSorted (cIndex1 ci) (cpoint1 ci) m)) 2 (segCount raw) dc) with (m := m3) as [T4 L4]; [|exact T3|].
  { intros x m0 Hin Hm0. pose proof (Hdc x Hin) as I1. destruct (sortedTable_push m0 (segCount raw) _ (cpoint1 x) Hm0 I1) as [A LA]. destruct (sortedTable_push _ (segCount raw) _ (cpoint2 x) A I1). split; [auto|lia]. }
  change (sortedTable m (segCount raw)) in T4. change (length (concat (map snd m)) = (length (concat (map snd m3)) + 2 * length dc)%nat) in L4.
  assert (Lm : (length (concat (map snd m)) <= 4 * (length (vertexes raw) * length (vertexes raw)) + 4 * (length (vertexes raw) * length (vertexes dual)) + 8 * length (vertexes raw))%nat).
  { cbn [map concat length] in L1. clear -L1 L2 L3 L4 Lsis Ldi Ldc Lci. lia. }
  clear L1 L2 L3 L4. clearbody m. clear m1 m2 m3 T1 T2 T3.
  destruct (Nat.eqb_spec (length m) 0) as [E0|E0].
  - rewrite at_get by lia. cbn [bind]. destruct (proj1 Hts (pos (at_ raw 0))) as (b & Eb). rewrite Eb. cbn [bind]. destruct b; cbn [negb].
    + unfold wholeRaw. rewrite at_get by lia. cbn [bind]. eexists. split; [auto|]. split; [reflexivity|]. split; [cbn; lia|]. left. split; [unfold wholeSlice; rcbn; reflexivity|]. split; [lia|exact Eb].
    + exists []. split; [auto|]. split; [reflexivity|]. split; [cbn; lia|right; left; constructor].
  - destruct (sortV_ok raw m) as (m' & Em & K & I & L). { intros k l Hkl. apply (proj2 T4) in Hkl. split; [lia|tauto]. }
    rewrite Em. cbn [bind].
    assert (Ht' : okTable m' (length (vertexes raw))). { split; [rewrite K; apply (sorted_okTable _ _ T4)|intros k l Hkl; apply I in Hkl; tauto]. }
    assert (Hfirst : exists first, (if negb (isClosed orig) then firstSliceLoop (S (length (vertexes raw))) ts raw m' emptyPline 0 else Ok []) = Ok first /\
      (first = [] \/ (isClosed orig = false /\ exists sl, first = [mkOSl (Some 0%nat) sl] /\ isClosed sl = false /\ vertexes sl <> []))).
    { destruct (isClosed orig) eqn:Ec; cbn [negb]; [exists []; auto|].
      destruct m' as [|[k0 l0] m0'] eqn:Em'. { cbn [map] in K. destruct m; [cbn in E0; lia|discriminate]. }
      rewrite <- Em' in *.
      assert (Hb : forall k l, In (k, l) m' -> (k + 1 < length (vertexes raw))%nat /\ l <> []).
      { intros k l Hkl. apply I in Hkl. destruct Hkl as ((l1 & Hkl & _) & _ & Hne). apply (proj2 T4) in Hkl. rewrite segCount_eq, Hcl in Hkl by auto. split; [lia|auto]. }
      assert (Hk0 : In (k0, l0) m') by (rewrite Em'; now left).
      destruct (first_ok ts raw m' Hts (proj1 Ht') Hb (S (length (vertexes raw))) 0 emptyPline) as (new & En & Hnew).
      - exists k0. split; [apply in_map_iff; exists (k0, l0); auto|]. apply Hb in Hk0. lia.
      - now left.
      - reflexivity.
      - exists new. split; [exact En|]. destruct Hnew as [->|(sl & -> & H1 & H2)]; [now left|]. right. split; [auto|]. eauto. }
    destruct Hfirst as (first & Ef & Hfirst). rewrite Ef. cbn [bind].
    destruct (slice_fold_ok ts raw (isClosed orig) false m' Hts Ht' m' first (fun kv H => H)) as (new & E & Hnew & Lnew).
    rewrite E. eexists. split; [auto|]. split; [reflexivity|]. split.
    + rewrite app_length. destruct Hfirst as [->|(_ & sl & -> & _)]; cbn [length]; lia.
    + destruct Hfirst as [->|(Hc & sl & -> & H1 & H2)]; [right; left; exact Hnew|]. right. right. split; [auto|]. exists sl, new. auto.
Qed.

(** the index can be built: few segments, or vertices not all on one horizontal or vertical line *)
Definition spread (pl : polyline) : Prop := (segCount pl <= 16)%nat \/
   ((exists v w, In v (vertexes pl) /\ In w (vertexes pl) /\ px v < px w) /\ (exists v w, In v (vertexes pl) /\ In w (vertexes pl) /\ py v < py w)).

Lemma stitch_ok sls closed mi : (Z.of_nat (length sls) <= 2 ^ 24)%Z -> (forall s, In s sls -> isClosed (slPline s) = false /\ vertexes (slPline s) <> []) ->
  (length sls = 1%nat \/ forall s, In s sls -> intrStartIndex s <> None) -> exists rs, stitchOffsetSlicesTogether sls closed mi sliceJoinThreshold = Ok rs.
Proof.
  intros Hl Hs Hi. destruct sls as [|s [|s2 rest]].
  - eexists. apply C38_none.
  - destruct (Hs s (or_introl eq_refl)) as [Ho Hv]. destruct (vertexes (slPline s)) as [|v vs] eqn:Ev; [contradiction|]. eexists. now apply (C38_single s v vs).
  - destruct Hi as [Hi|Hi]; [discriminate|]. destruct (C38_stitch (s :: s2 :: rest) closed mi sliceJoinThreshold sjt_pos Hl) as (chains & E & _); [|auto|cbn [length]; lia|eauto].
    intros s0 H0. destruct (Hs s0 H0) as [_ Hv]. destruct (vertexes (slPline s0)); [contradiction|cbn; lia].
Qed.

(** the raw offset, ready to be indexed *)
Lemma raw_ready pl offset : (48 * Z.of_nat (length (vertexes pl)) * Z.of_nat (length (vertexes pl)) <= 2 ^ 24)%Z -> (forall raw, createRawOffsetPline pl offset = Ok raw -> spread raw) ->
  exists raw, createRawOffsetPline pl offset = Ok raw /\ (length (vertexes raw) <= 2 * length (vertexes pl))%nat /\ ((length (vertexes raw) < 2)%nat \/ (indexable raw /\ isClosed raw = isClosed pl)).
Proof.
  intros Hb Hsp. destruct (raw_ok pl offset) as (raw & Er & Hc & _ & Hl). exists raw. split; [exact Er|]. split; [exact Hl|]. destruct (le_lt_dec 2 (length (vertexes raw))) as [H2|]; [right|now left].
  split; [|apply Hc; intros E; rewrite E in H2; cbn in H2; lia]. split; [auto|]. split; [|apply (Hsp _ Er)].
  assert (Z.of_nat (length (vertexes raw)) <= 2 * Z.of_nat (length (vertexes pl)))%Z by lia. nia.
Qed.

(** ** C40: parallelOffset returns: no loop guard fires, no access is out of range *)
Theorem C40_returns pl offset h : indexable pl -> (48 * Z.of_nat (length (vertexes pl)) * Z.of_nat (length (vertexes pl)) <= 2 ^ 24)%Z ->
  (forall raw, createRawOffsetPline pl offset = Ok raw -> spread raw) -> exists rs, parallelOffset pl offset h = Ok rs.
Proof.
  intros Hix Hb Hsp. assert (Hn : (2 <= length (vertexes pl))%nat) by apply Hix. destruct (raw_ready pl offset Hb Hsp) as (raw & Er & Hl & Hr).
  unfold parallelOffset, size. destruct (Nat.ltb_spec (length (vertexes pl)) 2); [lia|]. rewrite Er. cbn [bind].
  assert (W : forall b, isClosed (slPline (wholeSlice raw b)) = false) by reflexivity.
  destruct (isClosed pl && negb h).
  - destruct (slices_ok pl raw offset Hix) as (ix & sls & _ & -> & Ls & Hs); [tauto|]. cbn [bind]. apply stitch_ok.
    + nia.
    + destruct Hs as [(-> & H2 & _)|Hs].
      * intros s [<-|[]]. split; [reflexivity|]. cbn [wholeSlice slPline vertexes]. destruct (vertexes raw); [cbn in H2; lia|discriminate].
      * rewrite List.Forall_forall in Hs. intros s Hin. destruct (Hs s Hin) as (A & B & _). split; [auto|]. intros E; rewrite E in B; cbn in B; lia.
    + destruct Hs as [(-> & _)|Hs]; [now left|]. right. rewrite List.Forall_forall in Hs. intros s Hin. destruct (Hs s Hin) as (_ & _ & (k & -> & _) & _). discriminate.
  - destruct (raw_ok pl (topp offset)) as (dual & Ed & _ & _ & Ld). rewrite Ed. cbn [bind].
    destruct (dual_ok pl raw dual offset Hix Hr) as (ix & sls & _ & -> & Ls & Hs). cbn [bind]. apply stitch_ok.
    + nia.
    + assert (G : forall l, List.Forall (goodOffsetSlice (mkOrigTests pl offset ix) (length (vertexes raw))) l -> forall s, In s l -> isClosed (slPline s) = false /\ vertexes (slPline s) <> []).
      { intros l Hf s Hin. rewrite List.Forall_forall in Hf. destruct (Hf s Hin) as (A & B & _). split; [auto|]. intros E; rewrite E in B; cbn in B; lia. }
      destruct Hs as [(-> & H2 & _)|[Hs|(_ & s0 & rest & -> & A & B & C)]].
      * intros s [<-|[]]. split; [reflexivity|]. cbn [wholeSlice slPline vertexes]. destruct (vertexes raw); [cbn in H2; lia|discriminate].
      * now apply G.
      * intros s [<-|Hin]; [auto|]. now apply (G rest).
    + assert (G : forall l, List.Forall (goodOffsetSlice (mkOrigTests pl offset ix) (length (vertexes raw))) l -> forall s, In s l -> intrStartIndex s <> None).
      { intros l Hf s Hin. rewrite List.Forall_forall in Hf. destruct (Hf s Hin) as (_ & _ & (k & -> & _) & _). discriminate. }
      destruct Hs as [(-> & H2 & _)|[Hs|(_ & s0 & rest & -> & A & B & C)]]; [now left|right; now apply G|].
      right. intros s [<-|Hin]; [discriminate|]. now apply (G rest).
Qed.

(** ** C48 *)
(** Offsetting a closed polyline: every vertex of every result keeps the distance |offset| to the whole input, up to 2e-4, unless the raw offset needed no
    cut at all: then it is the result, and its first vertex keeps the distance. *)
Theorem C48_vertices_keep_distance pl offset h : isClosed pl = true -> indexable pl -> okPath pl -> smallBulges pl -> 1 / 10000 <= Rabs offset ->
  (48 * Z.of_nat (length (vertexes pl)) * Z.of_nat (length (vertexes pl)) <= 2 ^ 24)%Z -> (forall raw, createRawOffsetPline pl offset = Ok raw -> spread raw) ->
  exists rs, parallelOffset pl offset h = Ok rs /\
    ((forall p v q, In p rs -> In v (vertexes p) -> onPath pl q -> Rabs offset - 2 / 10000 < dist (pos v) q) \/
     (exists raw, createRawOffsetPline pl offset = Ok raw /\ rs = [mkPline true (vertexes raw)] /\ forall q, onPath pl q -> Rabs offset - 2 / 10000 < dist (pos (at_ raw 0)) q)).
Proof.
  intros Hcl Hix Hok Hsm Hoff Hb Hsp. destruct (C40_returns pl offset h Hix Hb Hsp) as (rs & Ers). exists rs. split; [exact Ers|].
  assert (Hn : (2 <= length (vertexes pl))%nat) by apply Hix. destruct (raw_ready pl offset Hb Hsp) as (raw & Er & Hl & Hr).
  assert (Acc : forall ix p, createApproxSpatialIndex pl = Ok ix -> accepted (mkOrigTests pl offset ix) p -> forall q, onPath pl q -> Rabs offset - 2 / 10000 < dist p q).
  { intros ix p Eix Ha q Hq. destruct (C37_offset_distance pl p offset Hix Hok Hsm Hoff) as (ix' & b & Eix' & Eb & Hacc & _). assert (ix' = ix) by congruence. subst ix'.
    assert (b = true). { unfold accepted, mkOrigTests in Ha. cbn [ptValid] in Ha. assert (Ok b = Ok true) by (rewrite <- Eb; exact Ha). congruence. }
    destruct (Hacc H) as [H1 _]. specialize (H1 q Hq). lra. }
  unfold parallelOffset, size in Ers. destruct (Nat.ltb_spec (length (vertexes pl)) 2); [lia|]. rewrite Er, Hcl in Ers. cbn [bind andb] in Ers.
  assert (Cases : exists ix sls, createApproxSpatialIndex pl = Ok ix /\ stitchOffsetSlicesTogether sls true (length (vertexes raw) - 1) sliceJoinThreshold = Ok rs /\
    ((sls = [wholeSlice raw true] /\ (2 <= length (vertexes raw))%nat /\ accepted (mkOrigTests pl offset ix) (pos (at_ raw 0))) \/ List.Forall (goodOffsetSlice (mkOrigTests pl offset ix) (length (vertexes raw))) sls)).
  { destruct h; cbn [negb] in Ers.
    - destruct (raw_ok pl (topp offset)) as (dual & Ed & _ & _ & Ld). rewrite Ed in Ers. cbn [bind] in Ers.
      destruct (dual_ok pl raw dual offset Hix Hr) as (ix & sls & Eix & Es & _ & Hs). rewrite Es in Ers. cbn [bind] in Ers. exists ix, sls. split; [auto|]. split; [auto|].
      rewrite Hcl in Hs. destruct Hs as [Hs|[Hs|[Hs _]]]; [auto|auto|discriminate].
    - destruct (slices_ok pl raw offset Hix) as (ix & sls & Eix & Es & _ & Hs); [tauto|]. rewrite Es in Ers. cbn [bind] in Ers. exists ix, sls. auto. }
  destruct Cases as (ix & sls & Eix & Est & [(-> & H2 & Ha)|Hs]).
  - right. exists raw. split; [exact Er|]. split; [|intros q Hq; now apply (Acc ix)].
    destruct (vertexes raw) as [|v0 vs] eqn:Ev; [cbn in H2; lia|].
    assert (E0 : at_ raw 0 = v0) by (unfold at_; now rewrite Ev).
    assert (F : fuzzyEqual (pos v0) (pos (setBulge v0 0)) sliceJoinThreshold = true).
    { rewrite sjt_R. apply fuzzyEqual_R. cbn [setBulge pos]. rewrite !Rminus_diag_eq by reflexivity. rewrite Rabs_R0. lra. }
    assert (Es : stitchOffsetSlicesTogether [wholeSlice raw true] true (length (v0 :: vs) - 1) sliceJoinThreshold = Ok [mkPline true (v0 :: vs)]).
    { rewrite (C38_single _ v0 (vs ++ [setBulge v0 0])); [|unfold wholeSlice; cbn [slPline vertexes]; rewrite Ev, E0; reflexivity|reflexivity].
      change (v0 :: vs ++ [setBulge v0 0]) with ((v0 :: vs) ++ [setBulge v0 0]). rewrite last_last, removelast_app by discriminate. cbn [removelast]. rewrite app_nil_r. cbn [andb]. rewrite F. reflexivity. }
    rewrite Es in Est. congruence.
  - left. intros p v q Hp Hv Hq. pose proof (stitch_from _ _ _ _ _ Est) as Hf. rewrite List.Forall_forall in Hf. destruct (Hf p Hp v Hv) as (s & Hins & Hvs).
    rewrite List.Forall_forall in Hs. destruct (Hs s Hins) as (_ & _ & _ & Hacc). apply (Acc ix); auto.
Qed.
End Total.

(** ** C49: the crossing test with the input polyline misses no segment *)
Theorem C49_crossing_test pl v w : indexable pl -> smallBulges pl -> Rabs (bulge v) <= 1 ->
  exists ix b, createApproxSpatialIndex pl = Ok ix /\ intersectsOrigPline defaultNodeSize pl ix v w = Ok b /\
    (b = true -> exists u1 u2, In (u1, u2) (pathSegs pl) /\ intrPlineSegs v w u1 u2 <> NoIntersect) /\
    (b = false -> forall u1 u2 q, In (u1, u2) (pathSegs pl) -> onSeg v w q -> onSeg u1 u2 q -> intrPlineSegs v w u1 u2 = NoIntersect).
Proof.
  intros Hix Hsm Hbv. destruct (pline_index pl Hix) as (ix & Eix & Hq & _). assert (Hn : (2 <= length (vertexes pl))%nat) by apply Hix.
  destruct (Hq (createFastApproxBoundingBox v w) 0) as (l & _ & Hl & Hv). rewrite !Rminus_0_r, !Rplus_0_r in Hv.
  set (g := fun i => match intrPlineSegs v w (at_ pl i) (at_ pl (nextI pl i)) with NoIntersect => false | _ => true end).
  assert (Vis : forall l b0, (forall i, In i l -> (i < segCount pl)%nat) -> exists b, snd (runVisitor (fun (_ : res bool) i => (negb (g i), Ok (g i))) (Ok b0) l) = Ok b /\
    (b = true -> (l = [] /\ b0 = true) \/ exists i, In i l /\ g i = true) /\ (b = false -> forall i, In i l -> g i = false)).
  { clear. induction l as [|i l IH]; intros b0 H; [exists b0; split; [reflexivity|]; split; [auto|intros _ i []]|]. cbn [runVisitor]. destruct (g i) eqn:Eg; cbn [negb].
    - exists true. split; [reflexivity|]. split; [intros _; right; exists i; split; [now left|auto]|discriminate].
    - destruct (IH false (fun j Hj => H j (or_intror Hj))) as (b & Eb & H1 & H2). exists b. split; [exact Eb|]. split.
      + intros Hb. destruct (H1 Hb) as [[_ E]|(j & Hj & Ej)]; [discriminate|]. right. exists j. split; [now right|auto].
      + intros Hb j [<-|Hj]; auto. }
  destruct (Vis l false ltac:(intros i Hi; now apply Hl in Hi)) as (b & Eb & Ht & Hf). exists ix, b. split; [exact Eix|].
  assert (Segs : forall v1 v2, In (v1, v2) (pathSegs pl) <-> exists i, (i < segCount pl)%nat /\ v1 = at_ pl i /\ v2 = at_ pl (nextI pl i)).
  { intros v1 v2. split.
    - intros Hin. pose proof (Permutation_in _ (Permutation_sym (vsegs_perm pl)) Hin) as Hvs. unfold vsegs in Hvs. apply in_map_iff in Hvs.
      destruct Hvs as ([i j] & Eij & Hij). cbn [fst snd] in Eij. injection Eij as <- <-. apply segs_iff in Hij. destruct Hij as (_ & Hi & ->). exists i. auto.
    - intros (i & Hi & -> & ->). apply (Permutation_in _ (vsegs_perm pl)). unfold vsegs. apply in_map_iff. exists (i, nextI pl i). split; [reflexivity|]. apply segs_iff. auto. }
  split; [|split].
  - unfold intersectsOrigPline.
    match goal with |- context [visitQuery _ _ _ _ _ _ ?vis _] => set (visitor := vis) end.
    match goal with |- context [bind ?m _] => assert (E : m = Ok (snd (runVisitor visitor (Ok false) l))) by exact (Hv (res bool) visitor (Ok false)); rewrite E end. cbn [bind].
    rewrite (runVisitor_ext visitor (fun (_ : res bool) i => (negb (g i), Ok (g i)))); [exact Eb|].
    intros st i Hi. apply Hl in Hi. destruct Hi as [Hi _]. destruct (seg_in_range pl i Hn Hi) as [H1 H2]. unfold visitor, size. fold (nextI pl i). rewrite !at_get by auto. cbn [bind]. reflexivity.
  - intros Hb. destruct (Ht Hb) as [[_ E]|(i & Hi & Gi)]; [discriminate|]. apply Hl in Hi. destruct Hi as [Hi _]. exists (at_ pl i), (at_ pl (nextI pl i)). split; [apply Segs; eauto|].
    unfold g in Gi. intros E. rewrite E in Gi. discriminate.
  - intros Hb u1 u2 q Hin O1 O2. pose proof (seg_start_small pl u1 u2 Hsm Hin) as Hbu. apply Segs in Hin. destruct Hin as (i & Hi & -> & ->).
    assert (Gi : g i = false). { apply Hf; [auto|]. apply Hl. split; [auto|]. apply (boxes_of_crossing _ _ _ _ q); auto. lra. }
    unfold g in Gi. destruct (intrPlineSegs _ _ _ _); congruence.
Qed.

(** ** Non-vacuity *)
(** polylines of at most 8 vertices always satisfy the last two hypotheses of C40_returns and C48_vertices_keep_distance *)
Lemma small_ready pl offset : (length (vertexes pl) <= 8)%nat ->
  (48 * Z.of_nat (length (vertexes pl)) * Z.of_nat (length (vertexes pl)) <= 2 ^ 24)%Z /\ (forall raw, createRawOffsetPline pl offset = Ok raw -> spread raw).
Proof.
  intros H. split; [nia|]. intros raw Er. left. destruct (raw_ok pl offset) as (raw' & Er' & _ & _ & Hl). assert (raw' = raw) by congruence. subst raw'.
  destruct (le_lt_dec 2 (length (vertexes raw))) as [H2|H2]; [pose proof (segCount_le raw H2); lia|]. unfold segCount, segs. destruct (Nat.ltb_spec (length (vertexes raw)) 2); cbn; lia.
Qed.

Example C48_circle {SL : StdLib} {SLaws : StdLaws SL} : exists rs, parallelOffset (circle 0 2) 1 false = Ok rs /\
    ((forall p v q, In p rs -> In v (vertexes p) -> onPath (circle 0 2) q -> Rabs 1 - 2 / 10000 < dist (pos v) q) \/
     (exists raw, createRawOffsetPline (circle 0 2) 1 = Ok raw /\ rs = [mkPline true (vertexes raw)] /\ forall q, onPath (circle 0 2) q -> Rabs 1 - 2 / 10000 < dist (pos (at_ raw 0)) q)).
Proof.
  destruct (small_ready (circle 0 2) 1 ltac:(cbn; lia)) as [H1 H2]. apply C48_vertices_keep_distance; auto.
  - apply circle_indexable.
  - apply C37_circle.
  - apply C37_circle.
  - rewrite Rabs_R1. lra.
Qed.
