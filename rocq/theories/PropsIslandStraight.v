(** * C66 for straight loops: the offsets of the single input loops are right by C67 and C68, so this need not be assumed *)
From Coq Require Import ZArith Reals Lra Lia List Bool Arith Permutation.
From Coquelicot Require Import Coquelicot.
From Verif Require Import Base Num MathUtils PlineSegment SpatialIndex Polyline Intersects Combine Offset Islands StdLaws RGeom Spec PropsMath ArcGeom Polar PropsSegment PropsClosest PropsIntr PropsPlineIntr PropsPolyline PropsArea Turning PropsWinding PropsRegion PropsPlineIndex PropsExtents PropsCoincident PropsSlices PropsStitch PropsCombine PropsPieces PropsTrace PropsBoolOps PropsEuler PropsOffset PropsOffsetSlices PropsOffsetSegs PropsRawOffset PropsJoins PropsRawStructure PropsRawGeom PropsRawPoints PropsParallelTotal PropsOffsetRuns PropsOffsetCuts PropsCover PropsRunPoints PropsBalance PropsJordan PropsWindArea PropsOffsetParts PropsOffsetResult PropsOffsetConst PropsOffsetExact PropsOffsetHits PropsOffsetExample PropsOffsetSide PropsIslands PropsIslandSlices PropsRegionOps PropsManyBalance PropsIslandCuts PropsIslandBoxes PropsIslandExact PropsOffsetRegion PropsOffsetLoops PropsIslandRegion PropsIslandResult PropsIslandTotal.
Import ListNotations.
Open Scope R_scope.

(** ** Specification: a straight input loop meeting the conditions of C67 *)
Definition straightLoop (pl : polyline) (D : R) : Prop := exists raw dual,
  clearRaw pl D /\ clearRaw pl (- D) /\ simplePath pl /\ indexable pl /\ (48 * Z.of_nat (length (vertexes pl)) * Z.of_nat (length (vertexes pl)) <= 2 ^ 24)%Z /\
  createRawOffsetPline pl D = Ok raw /\ createRawOffsetPline pl (- D) = Ok dual /\ spread raw /\ offsetPosition false raw dual /\
  decisive pl raw D (cutPoint false raw dual) /\ noFalseHits pl raw D /\ (forall l, part raw (cutPoint false raw dual) l -> ~ tinyLoop l) /\ noIsolated pl D.

(** ** The offsets of one input loop among all of them *)
Lemma windingSum_perm ps ps' q : Permutation ps ps' -> windingSum ps q = windingSum ps' q.
Proof. intros P. unfold windingSum. induction P as [|x a b _ IH|x y a|a b c _ IH1 _ IH2]; cbn [map fold_right]; lia. Qed.

Lemma filter_all {X} (f : X -> bool) l : (forall x, In x l -> f x = true) -> filter f l = l.
Proof. induction l as [|x l IH]; intros H; [reflexivity|]. cbn [filter]. rewrite (H x (or_introl eq_refl)), IH; [reflexivity|]. intros y Hy. apply H. now right. Qed.
Lemma filter_none {X} (f : X -> bool) l : (forall x, In x l -> f x = false) -> filter f l = [].
Proof. induction l as [|x l IH]; intros H; [reflexivity|]. cbn [filter]. rewrite (H x (or_introl eq_refl)), IH; [reflexivity|]. intros y Hy. apply H. now right. Qed.

Lemma filter_perm {X} (f : X -> bool) l l' : Permutation l l' -> Permutation (filter f l) (filter f l').
Proof.
  induction 1 as [|x a b _ IH|x y a|a b c _ IH1 _ IH2]; cbn [filter]; [constructor|destruct (f x); auto|destruct (f y), (f x); auto; constructor|now transitivity (filter f b)].
Qed.

Lemma numbered_pick {X Y} (f : X -> list Y) k (l : list X) : forall s,
  map snd (filter (fun ip => Nat.eqb (fst ip) k) (flat_map (fun il => map (pair (fst il)) (f (snd il))) (List.combine (seq s (length l)) l))) =
  if (s <=? k)%nat then match nth_error l (k - s) with Some x => f x | None => [] end else [].
Proof.
  induction l as [|x l IH]; intros s; cbn [length seq List.combine flat_map filter map].
  - destruct (s <=? k)%nat; [|reflexivity]. now destruct (k - s)%nat.
  - rewrite filter_app, map_app, IH. cbn [fst snd]. destruct (Nat.eq_dec s k) as [->|Ne].
    + rewrite filter_all. 2:{ intros p Hp. apply in_map_iff in Hp. destruct Hp as (y & <- & _). apply Nat.eqb_refl. }
      rewrite map_map. cbn [snd]. rewrite map_id, Nat.leb_refl, Nat.sub_diag. cbn [nth_error]. replace (S k <=? k)%nat with false by (symmetry; apply Nat.leb_gt; lia). apply app_nil_r.
    + rewrite filter_none. 2:{ intros p Hp. apply in_map_iff in Hp. destruct Hp as (y & <- & _). now apply Nat.eqb_neq. }
      cbn [map app]. destruct (Nat.leb_spec (S s) k), (Nat.leb_spec s k); try lia; [|reflexivity]. replace (k - s)%nat with (S (k - S s))%nat by lia. reflexivity.
Qed.

Lemma offsets_of_input {SL : StdLib} input D k P : inputLoop input k P -> map snd (filter (fun ip => Nat.eqb (fst ip) k) (allOffsets input D)) = offsetsOf D P.
Proof. intros H. unfold allOffsets, numbered. rewrite numbered_pick. cbn [Nat.leb]. rewrite Nat.sub_0_r. unfold inputLoop in H. now rewrite H. Qed.

Lemma allOffsets_in {SL : StdLib} input D i p : In (i, p) (allOffsets input D) -> exists P, inputLoop input i P /\ In p (offsetsOf D P).
Proof.
  intros H. unfold allOffsets, numbered in H. apply in_flat_map in H. destruct H as ([j P] & Hj & H). apply in_map_iff in H. destruct H as (p' & Ep & Hp). cbn [fst snd] in *. injection Ep as -> ->.
  exists P. split; [|exact Hp]. apply In_nth_error in Hj. destruct Hj as (n & Hn). unfold inputLoop. revert Hn. generalize (ccwLoops input ++ cwLoops input) as l. intros l Hn.
  assert (G : forall l s n, nth_error (List.combine (seq s (length l)) l) n = Some (i, P) -> nth_error l (i - s) = Some P /\ (s <= i)%nat).
  { clear. intros l. induction l as [|x l IH]; intros s n; cbn [length seq List.combine]; [now destruct n|]. destruct n as [|n]; cbn [nth_error].
    - injection 1 as -> ->. now rewrite Nat.sub_diag.
    - intros H. destruct (IH (S s) n H) as [E L]. split; [|lia]. now replace (i - s)%nat with (S (i - S s))%nat by lia. }
  destruct (G l 0%nat n Hn) as [E _]. now rewrite Nat.sub_0_r in E.
Qed.

Section Straight.
Context {SL : StdLib} {SLaws : StdLaws SL}.
Variables (input : loopSet) (D : R) (L : list offsetLoop).
Hypothesis HD : 1 / 10000 <= D.
Hypothesis Ccw : forall l, In l (ccwLoops input) -> 0 < getArea (lpoly l).
Hypothesis St : forall l, In l (ccwLoops input ++ cwLoops input) -> straightLoop (lpoly l) D.
Hypothesis HL : offsetLoops input D L.

Lemma D_abs : Rabs D = D. Proof. apply Rabs_right. lra. Qed.

Lemma in_input k P : inputLoop input k P -> In P (ccwLoops input ++ cwLoops input).
Proof. apply nth_error_In. Qed.

(** what C67 says about one input loop *)
Lemma one_input k P : inputLoop input k P -> parallelOffset (lpoly P) D false = Ok (offsetsOf D P) /\
  (forall r q, In r (offsetsOf D P) -> onPath r q -> atDistance (lpoly P) D q /\ onSide (lpoly P) D q) /\
  (forall q, (forall r, In r (offsetsOf D P) -> ~ onPath r q) ->
     (permitted P D q -> (background P + windingSum (offsetsOf D P) q)%Z = 1%Z) /\ (~ permitted P D q -> (background P + windingSum (offsetsOf D P) q)%Z = 0%Z)) /\
  (0 < getArea (lpoly P) -> forall r, In r (offsetsOf D P) -> 0 < getArea r).
Proof.
  intros Hk. destruct (St P (in_input k P Hk)) as (raw & dual & H1 & H2 & H3 & H4 & H5 & H6 & H7 & H8 & H9 & H10 & H11 & H12 & H13). pose proof D_abs as Da. assert (HD' : 1 / 10000 <= Rabs D) by now rewrite Da.
  destruct (C67_offset_region (lpoly P) D false raw dual) as (rs & E & Cl & On & _); auto.
  destruct (C67_offset_decides (lpoly P) D false raw dual) as (rs2 & E2 & _ & W); auto. destruct (C68_offset_loops (lpoly P) D false raw dual) as (rs3 & E3 & Lp & _); auto.
  assert (rs2 = rs) by congruence. assert (rs3 = rs) by congruence. subst rs2 rs3. unfold offsetsOf. rewrite E. split; [reflexivity|]. rewrite Da in On. split; [exact On|]. split.
  - assert (Ep : forall q, leftOver (lpoly P) D q <-> permitted P D q) by (intros q; unfold leftOver, permitted; now rewrite Da).
    assert (Eb : unboundedSide (lpoly P) D = background P).
    { destruct (C54_simple_winding (lpoly P)) as (Ne & _); [now apply (in_closed (lpoly P) D)|now apply (in_small (lpoly P) D)|auto|]. unfold unboundedSide, background. destruct (Rlt_dec 0 _) as [X|X], (Rlt_dec _ 0) as [Y|Y]; try reflexivity; exfalso; nra. }
    assert (Es : sense D = 1%Z) by (unfold sense; destruct (Rlt_dec 0 D); [reflexivity|lra]).
    intros q Off. specialize (W q Off). rewrite Eb, Es, Z.mul_1_l in W. now rewrite !Ep in W.
  - intros A r Hr. destruct (Lp r Hr) as (_ & _ & _ & _ & I). assert (0 < getArea (lpoly P) * getArea r) by (apply I; nra). nra.
Qed.

(** no offset is left out: the counter clockwise input loops have no clockwise offsets *)
Lemma none_dropped : Permutation (map (fun l => (parentLoopIndex l, lpoly l)) L) (allOffsets input D).
Proof.
  destruct HL as [EL _]. rewrite EL. rewrite Permutation_app_comm.
  assert (E : filter (fun ip => Rltb (getArea (snd ip)) 0 && (length (ccwLoops input) <=? fst ip)%nat) (allOffsets input D) = filter (fun ip => Rltb (getArea (snd ip)) 0) (allOffsets input D)).
  { apply filter_ext_in. intros [i p] Hp. cbn [fst snd]. destruct (Rltb (getArea p) 0) eqn:Ea; [|reflexivity]. cbn [andb]. apply Nat.leb_le. apply Rltb_spec in Ea. apply Nat.nlt_ge. intros Hi.
    destruct (allOffsets_in input D i p Hp) as (P & HP & Hin). destruct (one_input i P HP) as (_ & _ & _ & Pos). assert (0 < getArea p); [|lra]. apply Pos; [|exact Hin]. apply Ccw.
    unfold inputLoop in HP. rewrite nth_error_app1 in HP by exact Hi. now apply nth_error_In in HP. }
  rewrite E. apply filter_two.
Qed.

Theorem straight_exact : offsetsExact input D L.
Proof.
  split.
  - intros l z Hl O. assert (H : In (parentLoopIndex l, lpoly l) (allOffsets input D)). { apply (Permutation_in _ none_dropped). apply in_map_iff. now exists l. }
    destruct (allOffsets_in input D _ _ H) as (P & HP & Hin). exists P. split; [exact HP|]. exact (proj1 (proj2 (one_input _ P HP)) (lpoly l) z Hin O).
  - intros k P z Hk Off. assert (Pm : Permutation (map lpoly (filter (fun l => Nat.eqb (parentLoopIndex l) k) L)) (offsetsOf D P)).
    { rewrite <- (offsets_of_input input D k P Hk). pose proof (filter_perm (fun ip => Nat.eqb (fst ip) k) _ _ none_dropped) as Q. apply (Permutation_map snd) in Q. rewrite <- Q. clear.
      induction L as [|l t IH]; [constructor|]. cbn [map filter fst]. destruct (Nat.eqb _ k); cbn [map snd]; [now constructor|auto]. }
    cbv zeta. rewrite (windingSum_perm _ _ z Pm). apply (one_input k P Hk). intros r Hr O. apply (Permutation_in _ (Permutation_sym Pm)), in_map_iff in Hr. destruct Hr as (l & <- & Hl). apply filter_In in Hl. destruct Hl as [Hl E]. apply Nat.eqb_eq in E. exact (Off l Hl E O).
Qed.
End Straight.

(** Islands of straight loops: every input loop is a simple straight polyline meeting the conditions of C67, those of the first list run counter clockwise. Then the results bound the region
    permitted by all of them, with no assumption about the offsets of the single loops. *)
Theorem C66_straight_islands {SL : StdLib} {SLaws : StdLaws SL} o input d o' r L : (forall l, In l (ccwLoops input ++ cwLoops input) -> wellMade l /\ straightLoop (lpoly l) (Rabs d)) ->
  (forall l, In l (ccwLoops input) -> 0 < getArea (lpoly l)) -> 1 / 10000 <= Rabs d ->
  offsetLoops input (Rabs d) L -> manageable L -> fewMeetings L -> loopsPosition L -> arranged input (Rabs d) -> decisiveIslands input (Rabs d) L ->
  compute o input d = Ok (o', r) ->
  exists tiny : list polyline, (forall p, In p tiny -> Rabs (getArea p) < 1 / 10000) /\
    let curves := map lpoly (ccwLoops r ++ cwLoops r) ++ tiny in
    List.Forall closedPline curves /\
    (forall p q, In p curves -> onPath p q -> jointOffset input (Rabs d) q) /\
    (forall q, jointOffset input (Rabs d) q -> (forall i, ~ meeting L i q) -> exists p, In p curves /\ onPath p q) /\
    (forall q, (forall i, ~ meeting L i q) -> (forall p, In p curves -> ~ onPath p q) ->
       (permittedByAll input (Rabs d) q -> (backgroundAll input + windingSum curves q)%Z = 1%Z) /\
       (~ permittedByAll input (Rabs d) q -> (backgroundAll input + windingSum curves q)%Z = 0%Z)).
Proof.
  intros HW Ccw HD HL HMg HF HP HA HZ E. apply (C66_islands_region o input d o' r L); auto; [intros l Hl; now apply HW|]. apply straight_exact; auto. intros l Hl. now apply HW.
Qed.

(** The same without assuming that compute returns: it does, within the limits of C69. *)
Theorem C69_straight_islands {SL : StdLib} {SLaws : StdLaws SL} o input d L : (forall l, In l (ccwLoops input ++ cwLoops input) -> wellMade l /\ straightLoop (lpoly l) (Rabs d)) ->
  (forall l, In l (ccwLoops input) -> 0 < getArea (lpoly l)) -> 1 / 10000 <= Rabs d ->
  offsetLoops input (Rabs d) L -> manageable L -> loopsPosition L ->
  (2 * Z.of_nat (totalCuts L) * (Z.of_nat (loopVertexes L) + 2) <= 2 ^ 24)%Z ->
  exists o' r, compute o input d = Ok (o', r).
Proof.
  intros HW Ccw HD HL HMg HP Hb. apply (C69_islands_return o input d L (loopVertexes L)); auto.
  - intros l Hl. destruct (HW l Hl) as [(W1 & W2 & _) St]. split; [now split|]. apply In_nth_error in Hl. destruct Hl as (k & Hk). exists (offsetsOf (Rabs d) l).
    eapply (one_input input (Rabs d)); [exact HD|intros l' Hl'; now apply HW|exact Hk].
  - intros l Hl. split; [apply (lp_loops L HP l Hl)|now apply vertexes_in].
Qed.
