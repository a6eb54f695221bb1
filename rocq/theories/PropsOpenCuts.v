(** * C64: where the raw offset of an open polyline is cut *)
From Coq Require Import ZArith Reals Lra Lia List Bool Arith Permutation Sorted.
From Verif Require Import Base Num MathUtils PlineSegment SpatialIndex Polyline Intersects Combine Offset StdLaws RGeom Spec PropsMath ArcGeom Polar PropsSegment PropsClosest PropsIntr PropsPlineIntr PropsPolyline PropsWinding PropsRegion PropsPlineIndex PropsFindIntr PropsSelfIntr PropsCoincident PropsSlices PropsStitch PropsCombine PropsPieces PropsTrace PropsBoolOps PropsOffsetStitch PropsOffsetSlices PropsParallel PropsParallelTotal PropsEndCuts PropsOffsetRuns PropsOffsetCuts PropsOpenTrace.
Import ListNotations.
Open Scope R_scope.

(** ** Specification *)
(** q is the vertex at which segment j follows segment i, or the other way round *)
Definition followsAt (pl : polyline) (i j : nat) (q : vec) : Prop := (j = S i /\ q = pos (at_ pl j)) \/ (i = S j /\ q = pos (at_ pl i)).

(** two different segments of the open polyline pass through q, other than by following each other there *)
Definition openDouble (pl : polyline) (q : vec) : Prop :=
  exists i j, (S i < length (vertexes pl))%nat /\ (S j < length (vertexes pl))%nat /\ i <> j /\
    onSeg (at_ pl i) (at_ pl (S i)) q /\ onSeg (at_ pl j) (at_ pl (S j)) q /\ ~ followsAt pl i j q.

(** the pairwise intersections of the segments of the open polyline are exact, apart from the vertices at which they follow each other *)
Definition exactOpen (pl : polyline) : Prop :=
  forall i j, (S i < length (vertexes pl))%nat -> (S j < length (vertexes pl))%nat -> i <> j ->
    overlapsOf (at_ pl i) (at_ pl (S i)) (at_ pl j) (at_ pl (S j)) = [] /\
    forall q, ~ followsAt pl i j q -> (In q (crossPoints (at_ pl i) (at_ pl (S i)) (at_ pl j) (at_ pl (S j))) <-> onSeg (at_ pl i) (at_ pl (S i)) q /\ onSeg (at_ pl j) (at_ pl (S j)) q).

(** the cuts by the circle (c, r) are exact: nothing is only nearly on the circle, and what is on it is not next to a near tangency *)
Definition exactCircle (pl : polyline) (c : vec) (r : R) : Prop :=
  forall i, (S i < length (vertexes pl))%nat -> forall p,
    (cutOK (at_ pl i) (at_ pl (S i)) c r p -> dist c p = r /\ onSeg (at_ pl i) (at_ pl (S i)) p /\ p <> pos (at_ pl i)) /\
    (dist c p = r -> onSeg (at_ pl i) (at_ pl (S i)) p -> p <> pos (at_ pl i) -> mustCut (at_ pl i) (at_ pl (S i)) c r p).

(** ** Proofs *)
Section Self.
Context {SL : StdLib} {SLaws : StdLaws SL}.
Context (pl : polyline) (X : vec -> Prop).
Let n := length (vertexes pl).
Hypothesis (Hop : isClosed pl = false) (H2 : (2 <= n)%nat) (Hix : indexable pl) (Hsm : smallBulges pl) (Hex : exactOpen pl) (Hsp : spaced pl X) (HX : forall q, openDouble pl q -> X q).

Lemma open_count : segCount pl = (n - 1)%nat.
Proof. rewrite segCount_eq, Hop by auto. reflexivity. Qed.

Lemma open_next i : (S i < n)%nat -> nextI pl i = S i.
Proof. intros Hi. apply (seg_at_open pl H2 Hop i Hi). Qed.

Lemma open_in i : (S i < n)%nat -> In (at_ pl i, at_ pl (S i)) (pathSegs pl).
Proof. intros Hi. destruct (seg_at_open pl H2 Hop i Hi) as (<- & <- & _ & H). exact H. Qed.

Lemma open_small i : (i < n)%nat -> Rabs (bulge (at_ pl i)) <= 1.
Proof. intros Hi. unfold smallBulges in Hsm. rewrite List.Forall_forall in Hsm. apply Hsm. unfold at_. now apply nth_In. Qed.

Lemma self_open : exists ix sis, createApproxSpatialIndex pl = Ok ix /\ allSelfIntersects defaultNodeSize pl [] ix = Ok sis /\
  (forall k p, In (k, p) (selfCuts sis) -> (S k < n)%nat /\ onSeg (at_ pl k) (at_ pl (S k)) p /\ openDouble pl p) /\
  (forall k q, (S k < n)%nat -> onSeg (at_ pl k) (at_ pl (S k)) q -> openDouble pl q -> In (k, q) (selfCuts sis)).
Proof.
  destruct (le_lt_dec 3 n) as [H3|H3].
  2: { destruct (pline_index pl Hix) as (ix & Eix & _). exists ix, []. split; [exact Eix|]. split; [|split; [intros k p []|]].
    - unfold allSelfIntersects. destruct (C46_small pl [] H3) as [[E _]|(_ & Hc & _)]; [|congruence].
      match goal with |- context [bind ?m _] => assert (Em : m = Ok []) by exact E; rewrite Em end. cbn [bind]. now apply C31_small.
    - intros k q Hk _ (i & j & Hi & Hj & N & _). fold n in Hi, Hj. lia. }
  destruct (C46_consecutive_pairs pl [] H3) as (L1 & _ & L2). cbn [app] in L1. set (loc := flat_map (consecutivePoints pl) (consecutivePairs pl)) in *.
  destruct (C31_each_pair_once pl loc H3 Hix) as (ix & tested & E1 & E2 & _ & T1 & T2).
  exists ix, (loc ++ flat_map (selfPoints pl) tested). split; [exact E1|].
  rewrite open_count in L2.
  split; [|]. { unfold allSelfIntersects. rewrite L1. cbn [bind]. exact E2. }
  assert (Farv : forall q i, X q -> (i < n)%nat -> far q (pos (at_ pl i))).
  { intros q i Hq Hi. apply (proj1 (proj2 Hsp)); [unfold at_; now apply nth_In|auto]. }
  assert (NSm : forall x y, far x y -> same y x = false).
  { intros x y F. apply far_sym in F. apply not_true_is_false. intros S. unfold same in S. apply fuzzyEqual_R in S. destruct F; lra. }
  assert (Sepv : forall a, (S a < n)%nat -> fuzzyEqual (pos (at_ pl a)) (pos (at_ pl (S a))) (1 / 100000) = false).
  { intros a Ha. apply far_fuzzy. apply (proj1 Hsp). now apply open_in. }
  split.
  - intros k p Hin. unfold selfCuts in Hin. apply in_flat_map in Hin. destruct Hin as (x & Hx & Hk).
    assert (G : (S (sIndex1 x) < n)%nat /\ (S (sIndex2 x) < n)%nat /\ sIndex1 x <> sIndex2 x /\ onSeg (at_ pl (sIndex1 x)) (at_ pl (S (sIndex1 x))) (ipos x) /\
      onSeg (at_ pl (sIndex2 x)) (at_ pl (S (sIndex2 x))) (ipos x) /\ ~ followsAt pl (sIndex1 x) (sIndex2 x) (ipos x)).
    { apply in_app_or in Hx. destruct Hx as [Hx|Hx]; apply in_flat_map in Hx; destruct Hx as ([a b] & Hab & Hx).
      - apply L2 in Hab. destruct Hab as (Ha & Hb & ->). rewrite open_next in Hx, Hb by lia.
        destruct (Hex a (S a) ltac:(fold n; lia) ltac:(fold n; lia) ltac:(lia)) as [O C].
        unfold consecutivePoints in Hx. rewrite open_next in Hx by lia. rewrite O in Hx. cbn [map] in Hx. rewrite app_nil_r, Sepv in Hx by lia.
        apply in_map_iff in Hx. destruct Hx as (q & <- & Hq). cbn [sIndex1 sIndex2 ipos]. apply filter_In in Hq. destruct Hq as [Hq Hf].
        assert (NSh : ~ followsAt pl a (S a) q).
        { intros [[_ E]|[E _]]; [|lia]. subst q. apply negb_true_iff in Hf. rewrite <- not_true_iff_false, fuzzyEqual_R in Hf. apply Hf. rewrite !Rminus_diag_eq, Rabs_R0 by reflexivity. lra. }
        apply C in Hq; [|exact NSh]. split; [lia|]. split; [lia|]. split; [lia|tauto].
      - destruct (T1 a b Hab) as [(Ha & Hb & Hs & _) _]. rewrite open_count in Ha, Hb.
        assert (Nab : a <> b) by (intros E; apply Hs; now left).
        destruct (Hex a b ltac:(fold n; lia) ltac:(fold n; lia) Nab) as [O C].
        unfold selfPoints in Hx. rewrite !open_next in Hx by lia. rewrite O in Hx. cbn [flat_map] in Hx. rewrite app_nil_r in Hx. apply in_map_iff in Hx. destruct Hx as (q & <- & Hq). cbn [sIndex1 sIndex2 ipos].
        apply filter_In in Hq. destruct Hq as [Hq _].
        assert (NSh : ~ followsAt pl a b q).
        { intros [[E _]|[E _]]; apply Hs; unfold shareVertex; rewrite !open_next by lia; auto. }
        apply C in Hq; [|exact NSh]. split; [lia|]. split; [lia|]. tauto. }
    destruct G as (G1 & G2 & G3 & G4 & G5 & G6).
    assert (D : openDouble pl (ipos x)) by (exists (sIndex1 x), (sIndex2 x); auto 7).
    destruct Hk as [E|[E|[]]]; injection E as <- <-; auto.
  - intros k q Hk Ok Dq. pose proof (HX q Dq) as Xq.
    assert (NSh : forall i j, (S i < n)%nat -> (S j < n)%nat -> ~ followsAt pl i j q).
    { intros i j Hi Hj [[_ E]|[_ E]]; [apply (far_ne _ _ (Farv q j Xq ltac:(lia)))|apply (far_ne _ _ (Farv q i Xq ltac:(lia)))]; exact E. }
    assert (exists j, (S j < n)%nat /\ j <> k /\ onSeg (at_ pl j) (at_ pl (S j)) q) as (j & Hj & Njk & Oj).
    { destruct Dq as (a & b & Ha & Hb & Nab & Oa & Ob & _). destruct (Nat.eq_dec a k) as [->|Na]; [exists b|exists a]; auto. }
    assert (Fin : forall a b, (S a < n)%nat -> (S b < n)%nat -> a <> b -> onSeg (at_ pl a) (at_ pl (S a)) q -> onSeg (at_ pl b) (at_ pl (S b)) q ->
      (b = S a -> In (mkIntr a b q) loc) /\ (In (a, b) tested -> In (mkIntr a b q) (flat_map (selfPoints pl) tested))).
    { intros a b Ha Hb Nab Oa Ob.
      destruct (Hex a b Ha Hb Nab) as [O C]. specialize (C q (NSh a b Ha Hb)). assert (Cq : In q (crossPoints (at_ pl a) (at_ pl (S a)) (at_ pl b) (at_ pl (S b)))) by (apply C; auto).
      split.
      - intros E. subst b. apply in_flat_map. exists (a, S a). split; [apply L2; rewrite open_next by lia; lia|]. unfold consecutivePoints. rewrite open_next by lia. apply in_map.
        rewrite Sepv by lia. apply in_or_app. left. apply filter_In. split; [exact Cq|]. apply negb_true_iff, far_fuzzy. apply Farv; [auto|lia].
      - intros Ht. apply in_flat_map. exists (a, b). split; [auto|]. unfold selfPoints. rewrite !open_next by lia. apply in_map. apply filter_In. split; [apply in_or_app; left; exact Cq|].
        rewrite (NSm q (pos (at_ pl a))), (NSm q (pos (at_ pl b))) by (apply Farv; [auto|lia]). reflexivity. }
    assert (Done : forall a b, In (mkIntr a b q) (loc ++ flat_map (selfPoints pl) tested) -> In (a, q) (selfCuts (loc ++ flat_map (selfPoints pl) tested)) /\ In (b, q) (selfCuts (loc ++ flat_map (selfPoints pl) tested))).
    { intros a b Hin. split; apply in_flat_map; exists (mkIntr a b q); (split; [exact Hin|]); cbn [sIndex1 sIndex2 ipos]; [now left|right; now left]. }
    destruct (Nat.eq_dec j (S k)) as [E|N1].
    { destruct (Fin k j Hk Hj (fun E' => Njk (eq_sym E')) Ok Oj) as [F _]. apply (Done k j). apply in_or_app. left. now apply F. }
    destruct (Nat.eq_dec k (S j)) as [E|N2].
    { destruct (Fin j k Hj Hk Njk Oj Ok) as [F _]. apply (Done j k). apply in_or_app. left. now apply F. }
    assert (FP : farPair pl k j).
    { unfold farPair. rewrite open_count. split; [lia|]. split; [lia|]. split.
      - unfold shareVertex. rewrite !open_next by lia. lia.
      - apply (boxes_of_crossing _ _ _ _ q); auto; try lra; try (apply open_small; lia); rewrite ?open_next by lia; auto; rewrite open_count; lia. }
    destruct (T2 k j FP) as [H|H].
    + destruct (Fin k j Hk Hj (fun E' => Njk (eq_sym E')) Ok Oj) as [_ F]. apply (Done k j). apply in_or_app. right. now apply F.
    + destruct (Fin j k Hj Hk Njk Oj Ok) as [_ F]. apply (Done j k). apply in_or_app. right. now apply F.
Qed.
End Self.

(** the points two open polylines have in common *)
Lemma cross_open {SL : StdLib} {SLaws : StdLaws SL} (A B : polyline) : isClosed A = false -> isClosed B = false -> indexable A -> (2 <= length (vertexes B))%nat -> smallBulges A -> smallBulges B ->
  (forall a1 a2 b1 b2, In (a1, a2) (pathSegs A) -> In (b1, b2) (pathSegs B) -> exactPair a1 a2 b1 b2) -> spaced A (common A B) -> spaced B (common A B) ->
  exists ix intrs, createApproxSpatialIndex A = Ok ix /\ findIntersects defaultNodeSize A B ix [] [] = Ok (intrs, []) /\
  (forall x, In x intrs -> (S (sIndex1 x) < length (vertexes A))%nat /\ (S (sIndex2 x) < length (vertexes B))%nat /\
     onSeg (at_ A (sIndex1 x)) (at_ A (S (sIndex1 x))) (ipos x) /\ onSeg (at_ B (sIndex2 x)) (at_ B (S (sIndex2 x))) (ipos x)) /\
  (forall i j q, (S i < length (vertexes A))%nat -> (S j < length (vertexes B))%nat -> onSeg (at_ A i) (at_ A (S i)) q -> onSeg (at_ B j) (at_ B (S j)) q ->
     In (mkIntr i j q) intrs).
Proof.
  intros HA HB IA LB SA SB Hex SpA SpB. assert (LA : (2 <= length (vertexes A))%nat) by apply IA.
  destruct (C30_find_intersects A B IA LB) as (ix0 & tested & intrs0 & coincs0 & E1 & E2 & _ & Ht & Ec & keep & Ei & Hk).
  assert (NA : segCount A = (length (vertexes A) - 1)%nat) by (now apply open_count). assert (NB : segCount B = (length (vertexes B) - 1)%nat) by (now apply open_count).
  assert (Gp : forall i1 i2, (S i1 < length (vertexes A))%nat -> (S i2 < length (vertexes B))%nat -> exactPair (at_ A i1) (at_ A (nextI A i1)) (at_ B i2) (at_ B (nextI B i2))).
  { intros i1 i2 H1 H2. rewrite !open_next by auto. apply Hex; now apply open_in. }
  assert (E0 : coincs0 = []).
  { rewrite Ec. assert (G : forall l, (forall e, In e l -> In e tested) -> flat_map (pairCoinc A B) l = []); [|apply G; auto]. induction l as [|[i1 i2] l IH]; intros H; [reflexivity|]. cbn [flat_map].
    rewrite IH by (intros; apply H; now right). assert (Hin : In (i1, i2) tested) by (apply H; now left). apply Ht in Hin.
    destruct (Gp i1 i2 ltac:(lia) ltac:(lia)) as [Eo _]. unfold pairCoinc. rewrite Eo. reflexivity. }
  subst coincs0. rewrite E0 in E2. destruct (C30_sound A B ix0 intrs0 [] IA LB E1 E2) as [Si _].
  exists ix0, intrs0. split; [exact E1|]. split; [exact E2|]. split.
  - intros x Hx. destruct (Si x Hx) as (H1 & H2 & H3). rewrite NA in H1. rewrite NB in H2. destruct (Gp (sIndex1 x) (sIndex2 x) ltac:(lia) ltac:(lia)) as [_ X]. apply X in H3.
    rewrite !open_next in H3 by (auto; lia). split; [lia|]. split; [lia|]. tauto.
  - intros i j q Hi Hj Oi Oj.
    assert (CM : common A B q) by (split; [exists (at_ A i), (at_ A (S i))|exists (at_ B j), (at_ B (S j))]; (split; [now apply open_in|auto])).
    assert (Bi : Rabs (bulge (at_ A i)) <= 1) by (apply open_small; auto; lia).
    assert (Bj : Rabs (bulge (at_ B j)) <= 1) by (apply open_small; auto; lia).
    rewrite <- (open_next A HA LA i Hi) in Oi. rewrite <- (open_next B HB LB j Hj) in Oj.
    destruct (C30_no_intersect_lost A B i j q IA LB ltac:(lia) ltac:(lia) Bi Bj Oi Oj) as (ix' & tested' & intrs' & coincs' & E1' & E2' & It & _ & L).
    assert (ix' = ix0) by congruence. subst ix'. assert (intrs' = intrs0) by congruence. subst intrs'.
    assert (NS : forall x y, far x y -> same y x = false).
    { intros x y F. apply far_sym in F. apply not_true_is_false. intros S. unfold same in S. apply fuzzyEqual_R in S. destruct F; lra. }
    assert (P : In (mkIntr i j q) (pairPoints A B (i, j))).
    { unfold pairPoints. apply in_map. apply filter_In. split; [apply (Gp i j Hi Hj); auto|].
      rewrite (NS q (pos (at_ A i))) by (apply SpA; [unfold at_; apply nth_In; lia|exact CM]).
      rewrite (NS q (pos (at_ B j))) by (apply SpB; [unfold at_; apply nth_In; lia|exact CM]). reflexivity. }
    destruct (L _ P) as [H|[(i1 & i2 & p & p' & _ & Ho & _) HS]]; [exact H|]. exfalso. cbn [ipos sIndex1 sIndex2] in HS.
    rewrite !open_next in HS by auto.
    destruct HS as [HS|HS].
    + rewrite (NS (pos (at_ A (S i))) q) in HS; [discriminate|]. apply far_sym, SpA; [unfold at_; now apply nth_In|exact CM].
    + rewrite (NS (pos (at_ B (S j))) q) in HS; [discriminate|]. apply far_sym, SpB; [unfold at_; now apply nth_In|exact CM].
Qed.

(** the cuts by the circle about an end point *)
Lemma circle_open (pl : polyline) (X : vec -> Prop) offset c : isClosed pl = false -> indexable pl -> smallBulges pl -> spaced pl X -> exactCircle pl c (Rabs offset) ->
  exists ix, createApproxSpatialIndex pl = Ok ix /\ forall out, exists new, offsetCircleIntersectsWithPline pl offset c ix out = Ok (out ++ new) /\
    forall i p, In (i, p) new <-> (S i < length (vertexes pl))%nat /\ onSeg (at_ pl i) (at_ pl (S i)) p /\ dist c p = Rabs offset /\ p <> pos (at_ pl i).
Proof.
  intros Hc Hix Hsm Hsp Hex. assert (H2 : (2 <= length (vertexes pl))%nat) by apply Hix.
  assert (Hok : okSegs pl).
  { intros i Hi. rewrite open_count in Hi by auto. rewrite Nat.add_1_r. destruct (Classical_Prop.classic (isLine (at_ pl i))) as [|N]; [now left|right]. split; [auto|]. split; [apply open_small; auto; lia|].
    apply far_ne, (proj1 Hsp). apply open_in; auto; lia. }
  destruct (C63_end_cuts pl offset c Hix Hc Hok) as (ix & Eix & H). exists ix. split; [exact Eix|]. intros out. destruct (H out) as (new & En & Sn & Cn). exists new. split; [exact En|].
  rewrite open_count in Sn, Cn by auto. intros i p. split.
  - intros Hin. destruct (Sn i p Hin) as [Hi Hcut]. rewrite Nat.add_1_r in Hcut. apply (Hex i ltac:(lia)) in Hcut. split; [lia|]. tauto.
  - intros (Hi & O & Dp & Np). apply Cn; [lia|]. rewrite Nat.add_1_r. now apply (Hex i Hi).
Qed.

(** the table filled with the circle cuts *)
Lemma circS_rep (circ : list (nat * vec)) : forall ps m, repS ps m -> repS (ps ++ circ) (fold_left (fun m '(k, p) => mpushSorted k p m) circ m).
Proof.
  induction circ as [|[k p] circ IH]; intros ps m H; cbn [fold_left]; [now rewrite app_nil_r|].
  change ((k, p) :: circ) with ([(k, p)] ++ circ). rewrite app_assoc. apply IH, pushSorted_rep, H.
Qed.

Lemma last_at (pl : polyline) : (1 <= length (vertexes pl))%nat -> lastVertex pl = Ok (at_ pl (length (vertexes pl) - 1)).
Proof.
  intros H. destruct (get_last pl) as (l & w & E & L & _); [intros E; rewrite E in H; cbn in H; lia|]. rewrite L. f_equal. unfold at_. rewrite E, app_length. cbn [length]. rewrite app_nth2 by lia.
  replace (length l + 1 - 1 - length l)%nat with 0%nat by lia. reflexivity.
Qed.
