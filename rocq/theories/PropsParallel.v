(** * C40, C48: parallelOffset *)
From Coq Require Import ZArith Reals Lra Lia List Bool Arith Permutation Sorted.
From Verif Require Import Base Num MathUtils PlineSegment SpatialIndex IndexTree IndexQuery PropsIndex Polyline Intersects Combine Offset StdLaws RGeom Spec PropsPolyline PropsPlineIndex PropsFindIntr PropsSelfIntr PropsCoincident PropsSlices PropsStitch PropsCombine PropsRegion PropsExtents PropsBoolean PropsOffset PropsOffsetStitch PropsOffsetSlices PropsRawOffset.
Import ListNotations.

(** ** C40: shape of the results (any scalar implementation, any sorting, any hash order) *)
Section Shape.
Context {RO : RealOps} {SL : StdLib}.

(** slices are open and have at least two vertices *)
Definition sliceShape (s : openSlice) : Prop := isClosed (slPline s) = false /\ (2 <= length (vertexes (slPline s)))%nat.

Lemma mid_shape ts k endV : forall rest prev result r, midOffsetSlices ts k endV prev rest result = Ok r -> List.Forall sliceShape result -> List.Forall sliceShape r.
Proof.
  induction rest as [|p rest IH]; intros prev result r E H; cbn [midOffsetSlices] in E; [injection E as <-; auto|].
  apply bind_inv in E. destruct E as (keep & _ & E). apply IH in E; [auto|]. destruct keep; [|auto]. apply Forall_app. split; [auto|]. constructor; [|constructor]. split; [reflexivity|cbn; lia].
Qed.

Lemma add_open (s : polyline) v : isClosed (addOrReplaceIfSamePos s v) = isClosed s /\ vertexes (addOrReplaceIfSamePos s v) <> [].
Proof.
  unfold addOrReplaceIfSamePos. destruct (rev (vertexes s)) as [|x t]; [|destruct (fuzzyEqual _ _ _)]; cbn [isClosed vertexes addVertex]; (split; [reflexivity|]); intros E; apply app_eq_nil in E; destruct E; discriminate.
Qed.

Lemma loop_open ts raw wraps m : forall fuel s index valid s', offsetSliceLoop fuel ts raw wraps m s index = Ok (valid, s') -> isClosed s' = isClosed s.
Proof.
  induction fuel as [|fuel IH]; intros s index valid s' E; [discriminate|]. cbn [offsetSliceLoop] in E.
  apply bind_inv in E. destruct E as (v & _ & E). apply bind_inv in E. destruct E as (ok & _ & E). destruct (negb ok); [injection E as <- <-; auto|].
  apply bind_inv in E. destruct E as (lv & _ & E). apply bind_inv in E. destruct E as (h & _ & E). destruct h; [injection E as <- <-; auto|].
  pose proof (proj1 (add_open s v)) as A. destruct (mfind index m).
  - apply bind_inv in E. destruct E as (ip & _ & E). apply bind_inv in E. destruct E as (ok2 & _ & E). destruct (negb ok2); [injection E as <- <-; auto|].
    apply bind_inv in E. destruct E as (nv & _ & E). apply bind_inv in E. destruct E as (lv2 & _ & E). apply bind_inv in E. destruct E as (ok3 & _ & E). destruct (negb ok3); [injection E as <- <-; auto|].
    apply bind_inv in E. destruct E as (c & Ec & E). injection E as <- <-. rewrite (proj1 (add_open c _)). unfold setLastVertex in Ec. destruct (rev _); [discriminate|]. injection Ec as <-. exact A.
  - destruct (_ =? _)%nat; [destruct wraps; [|injection E as <- <-; auto]|]; apply IH in E; congruence.
Qed.

Lemma one_shape ts raw wraps sc m result kv r : offsetSliceOne ts raw wraps sc m result kv = Ok r -> List.Forall sliceShape result -> List.Forall sliceShape r.
Proof.
  destruct kv as [k l]. unfold offsetSliceOne. intros E H. apply bind_inv in E. destruct E as (sv & _ & E). apply bind_inv in E. destruct E as (ev & _ & E).
  destruct l as [|p0 rest]; [discriminate|]. apply bind_inv in E. destruct E as (r1 & E1 & E).
  assert (H1 : List.Forall sliceShape r1) by (destruct (negb _); [eapply mid_shape; eauto|injection E1 as <-; auto]).
  apply bind_inv in E. destruct E as (ok & _ & E). destruct (negb ok); [injection E as <-; auto|].
  apply bind_inv in E. destruct E as ([valid s'] & El & E). apply bind_inv in E. destruct E as (v2 & Ev & E). injection E as <-. destruct v2; [|auto].
  apply Forall_app. split; [auto|]. constructor; [|constructor]. split; cbn [slPline]; [apply loop_open in El; exact El|].
  unfold size in Ev. destruct (valid && (1 <? length (vertexes s'))%nat) eqn:V; cbn [andb] in Ev; [|discriminate]. apply andb_true_iff in V. destruct V as [_ V]. apply Nat.ltb_lt in V. lia.
Qed.

Lemma mfold_inv {A S} (f : S -> A -> res S) (P : S -> Prop) l : (forall s a s', In a l -> f s a = Ok s' -> P s -> P s') -> forall s s', mfold f l s = Ok s' -> P s -> P s'.
Proof.
  induction l as [|a l IH]; intros H s s' E Hs; cbn [mfold] in E; [injection E as <-; auto|]. apply bind_inv in E. destruct E as (s1 & E1 & E).
  eapply IH; [|exact E|]; [intros; eapply H; [right; eauto|eauto|auto]|]. eapply H; [now left|eauto|auto].
Qed.

Lemma first_shape ts raw m : forall fuel s index r, firstSliceLoop fuel ts raw m s index = Ok r -> isClosed s = false -> r = [] \/ exists sl, r = [mkOSl (Some 0%nat) sl] /\ isClosed sl = false /\ vertexes sl <> [].
Proof.
  induction fuel as [|fuel IH]; intros s index r E Hs; [discriminate|]. cbn [firstSliceLoop] in E. destruct (mfind index m).
  - apply bind_inv in E. destruct E as (ip & _ & E). apply bind_inv in E. destruct E as (ok & _ & E). destruct (negb ok); [injection E as <-; auto|].
    apply bind_inv in E. destruct E as (v & _ & E). apply bind_inv in E. destruct E as (nv & _ & E). apply bind_inv in E. destruct E as (ok2 & _ & E). destruct (negb ok2); [injection E as <-; auto|].
    apply bind_inv in E. destruct E as (h & _ & E). destruct h; injection E as <-; [auto|]. right. eexists. split; [reflexivity|]. split; [|apply add_open]. rewrite !(proj1 (add_open _ _)). exact Hs.
  - apply bind_inv in E. destruct E as (v & _ & E). apply bind_inv in E. destruct E as (ok & _ & E). destruct (negb ok); [injection E as <-; auto|].
    apply bind_inv in E. destruct E as (h & _ & E). destruct h; [injection E as <-; auto|]. apply IH in E; [auto|]. rewrite (proj1 (add_open _ _)). exact Hs.
Qed.

(** the slices: all well shaped, except that the first slice of an open polyline may have a single vertex *)
Definition slicesShape (closed : bool) (sls : list openSlice) : Prop :=
  List.Forall sliceShape sls \/ (closed = false /\ exists s rest, sls = s :: rest /\ isClosed (slPline s) = false /\ vertexes (slPline s) <> [] /\ List.Forall sliceShape rest).

Lemma whole_shape raw (b : bool) r : (2 <= length (vertexes raw))%nat -> wholeRaw raw b = Ok r -> List.Forall sliceShape r.
Proof.
  intros H E. unfold wholeRaw in E. apply bind_inv in E. destruct E as (r0 & _ & E). injection E as <-. constructor; [|constructor]. split; [reflexivity|]. cbn [slPline vertexes]. rewrite app_length. lia.
Qed.

Lemma slices_shape orig raw offset r : slicesFromRawOffset orig raw offset = Ok r -> List.Forall sliceShape r.
Proof.
  unfold slicesFromRawOffset, size. destruct (Nat.ltb_spec (length (vertexes raw)) 2) as [|Hn]; intros E; [injection E as <-; constructor|].
  apply bind_inv in E. destruct E as (oi & _ & E). apply bind_inv in E. destruct E as (ri & _ & E). apply bind_inv in E. destruct E as (si & _ & E).
  destruct (_ =? 0)%nat.
  - apply bind_inv in E. destruct E as (r0 & _ & E). apply bind_inv in E. destruct E as (ok & _ & E). destruct (negb ok); [injection E as <-; constructor|]. now apply whole_shape in E.
  - apply bind_inv in E. destruct E as (m & _ & E). eapply (mfold_inv _ (List.Forall sliceShape)); [|exact E|constructor]. intros s a s' _ Es Hs. eapply one_shape; eauto.
Qed.

Lemma dual_shape orig raw dual offset r : dualSliceAtIntersectsForOffset orig raw dual offset = Ok r -> slicesShape (isClosed orig) r.
Proof.
  unfold dualSliceAtIntersectsForOffset, size. destruct (Nat.ltb_spec (length (vertexes raw)) 2) as [|Hn]; intros E; [injection E as <-; left; constructor|].
  apply bind_inv in E. destruct E as (oi & _ & E). apply bind_inv in E. destruct E as (ri & _ & E). apply bind_inv in E. destruct E as (si & _ & E). apply bind_inv in E. destruct E as ([di dc] & _ & E).
  apply bind_inv in E. destruct E as (circ & _ & E). destruct (_ =? 0)%nat.
  - left. apply bind_inv in E. destruct E as (r0 & _ & E). apply bind_inv in E. destruct E as (ok & _ & E). destruct (negb ok); [injection E as <-; constructor|]. now apply whole_shape in E.
  - apply bind_inv in E. destruct E as (m & _ & E). apply bind_inv in E. destruct E as (first & Ef & E).
    eapply (mfold_inv _ (slicesShape (isClosed orig))); [|exact E|].
    + intros s [k l] s' _ Es [H|(Hc & s0 & rest & -> & H1 & H2 & H3)]; [left; eapply one_shape; eauto|].
      right. split; [exact Hc|]. exists s0. unfold offsetSliceOne in Es. apply bind_inv in Es. destruct Es as (sv & Q1 & Es). apply bind_inv in Es. destruct Es as (ev & Q2 & Es).
      destruct l as [|p0 l]; [discriminate|]. 
      apply bind_inv in Es. destruct Es as (r1 & E1 & Es).
      assert (exists rest1, r1 = s0 :: rest1 /\ List.Forall sliceShape rest1) as (rest1 & -> & G1).
      { destruct (negb (length (p0 :: l) =? 1)%nat) in E1; [|injection E1 as <-; eauto]. revert E1. generalize (splitVertex (splitAtPoint sv ev p0)) as prev. clear -H3. revert rest H3.
        induction l as [|p l IH]; intros rest H3 prev E1; cbn [midOffsetSlices] in E1; [injection E1 as <-; eauto|]. apply bind_inv in E1. destruct E1 as (keep & _ & E1).
        destruct keep; cbn [app] in E1; (apply IH in E1; [auto|]); [|auto]. apply Forall_app. split; [auto|]. constructor; [|constructor]. split; [reflexivity|cbn; lia]. }
      apply bind_inv in Es. destruct Es as (ok & _ & Es). destruct (negb ok); [injection Es as <-; eauto|].
      apply bind_inv in Es. destruct Es as ([valid s1] & El & Es). apply bind_inv in Es. destruct Es as (v2 & Ev & Es). injection Es as <-. destruct v2; [|eauto].
      cbn [app]. eexists. split; [reflexivity|]. split; [auto|]. split; [auto|]. apply Forall_app. split; [auto|]. constructor; [|constructor]. split; cbn [slPline]; [apply loop_open in El; exact El|].
      unfold size in Ev. destruct (valid && (1 <? length (vertexes s1))%nat) eqn:V; cbn [andb] in Ev; [|discriminate]. apply andb_true_iff in V. destruct V as [_ V]. apply Nat.ltb_lt in V. lia.
    + destruct (isClosed orig) eqn:Ec; cbn [negb] in Ef; [injection Ef as <-; left; constructor|]. apply first_shape in Ef; [|reflexivity]. destruct Ef as [->|(sl & -> & H1 & H2)]; [left; constructor|].
      right. split; [auto|]. do 2 eexists. split; [reflexivity|]. cbn [slPline]. auto.
Qed.

(** a well formed result *)
Definition resultShape (closed : bool) (p : polyline) : Prop :=
  vertexes p <> [] /\ (isClosed p = true -> closed = true) /\ (isClosed p = false -> (2 <= length (vertexes p))%nat).

Lemma stitchLoop_shape slices closed mi d ix initial : forall fuel visited result pre cur visited' result',
  stitchOffsetLoop fuel slices closed mi d ix initial visited result pre cur = Ok (visited', result') -> List.Forall (resultShape closed) result -> List.Forall (resultShape closed) result'.
Proof.
  induction fuel as [|fuel IH]; intros visited result pre cur visited' result' E H; [discriminate|]. cbn [stitchOffsetLoop] in E.
  apply bind_inv in E. destruct E as (s & _ & E). apply bind_inv in E. destruct E as (ev & _ & E). apply bind_inv in E. destruct E as (q & _ & E). apply bind_inv in E. destruct E as (q2 & _ & E).
  destruct (std_sort _ q2) as [|nx rest].
  - destruct (Nat.ltb_spec 1 (length (pre ++ vertexes (slPline s)))) as [Hl|_]; [|injection E as <- <-; auto].
    apply bind_inv in E. destruct E as (a & _ & E). apply bind_inv in E. destruct E as (b & _ & E).
    destruct closed; cbn [andb] in E.
    + destruct (fuzzyEqual _ _ _); injection E as <- <-; apply Forall_app; (split; [auto|]); constructor; try constructor; cbn [isClosed vertexes].
      * intros Ev. pose proof (removelast_len [] (pre ++ vertexes (slPline s))) as R. rewrite Ev in R. cbn in R. lia.
      * split; [auto|discriminate].
      * intros Ev. rewrite Ev in Hl. cbn in Hl. lia.
      * split; [auto|]. intros; lia.
    + injection E as <- <-. apply Forall_app. split; [auto|]. constructor; [|constructor]. split; [intros Ev; cbn [vertexes] in Ev; rewrite Ev in Hl; cbn in Hl; lia|]. split; [discriminate|]. cbn [vertexes]. lia.
  - apply bind_inv in E. destruct E as (v & _ & E). eapply IH; eauto.
Qed.

Lemma stitch_shape slices (closed : bool) mi d r : slicesShape closed slices -> stitchOffsetSlicesTogether slices closed mi d = Ok r ->
  List.Forall (resultShape closed) r \/ (closed = false /\ exists p, r = [p] /\ isClosed p = false /\ vertexes p <> []).
Proof.
  intros Hs E. unfold stitchOffsetSlicesTogether in E. destruct slices as [|s [|s2 rest]].
  - injection E as <-. left. constructor.
  - destruct closed.
    + assert (H : sliceShape s) by (destruct Hs as [Hs|[Hs _]]; [inversion Hs; auto|discriminate]). destruct H as [Ho H2]. left.
      apply bind_inv in E. destruct E as (a & _ & E). apply bind_inv in E. destruct E as (b & _ & E). destruct (fuzzyEqual _ _ _).
      * apply bind_inv in E. destruct E as (p & Ep & E). injection E as <-. constructor; [|constructor]. unfold popBack in Ep. destruct (rev (vertexes (slPline s))) as [|x t] eqn:Er; [discriminate|]. injection Ep as <-.
        apply (f_equal (@length _)) in Er. rewrite rev_length in Er. cbn [length] in Er. split; [|split; [auto|discriminate]]. cbn [setClosed vertexes]. intros Ev. apply (f_equal (@length _)) in Ev. rewrite rev_length in Ev. cbn in Ev. lia.
      * injection E as <-. constructor; [|constructor]. split; [intros Ev; rewrite Ev in H2; cbn in H2; lia|]. split; [auto|]. intros _. exact H2.
    + injection E as <-. destruct Hs as [Hs|(_ & s0 & rest & Es & H1 & H2 & _)].
      * inversion Hs as [|? ? [Ho H2] _]. left. constructor; [|constructor]. split; [intros Ev; rewrite Ev in H2; cbn in H2; lia|]. split; [congruence|]. intros _. exact H2.
      * injection Es as <- <-. right. split; [auto|]. eexists. split; [reflexivity|]. auto.
  - left. apply bind_inv in E. destruct E as (ix & _ & E). apply bind_inv in E. destruct E as ([vis res] & E1 & E). injection E as <-.
    apply (mfold_inv _ (fun st => List.Forall (resultShape closed) (snd st))) in E1; [exact E1| |constructor].
    intros [v0 r0] i [v1 r1] _ Es H0. cbn [snd] in *. unfold stitchOffsetFrom in Es. apply bind_inv in Es. destruct Es as (vis0 & _ & Es). destruct vis0; [injection Es as <- <-; auto|].
    apply bind_inv in Es. destruct Es as (v2 & _ & Es). apply bind_inv in Es. destruct Es as (s' & _ & Es). apply bind_inv in Es. destruct Es as (w & _ & Es). eapply stitchLoop_shape; eauto.
Qed.

(** Fewer than two vertices: nothing. *)
Theorem C40_short pl offset h : (length (vertexes pl) < 2)%nat -> parallelOffset pl offset h = Ok [].
Proof. intros H. unfold parallelOffset, size. destruct (Nat.ltb_spec (length (vertexes pl)) 2); [reflexivity|lia]. Qed.

(** Every returned polyline has a vertex; it is closed only if the input is; an open one has at least two vertices, except that the offset of an open
    input may consist of one single vertex polyline. *)
Theorem C40_shape pl offset h rs : parallelOffset pl offset h = Ok rs ->
  (forall p, In p rs -> vertexes p <> [] /\ (isClosed p = true -> isClosed pl = true)) /\
  (forall p, In p rs -> isClosed p = false -> (2 <= length (vertexes p))%nat \/ (isClosed pl = false /\ rs = [p])).
Proof.
  unfold parallelOffset, size. destruct (Nat.ltb_spec (length (vertexes pl)) 2) as [|Hn]; intros E; [injection E as <-; split; intros p []|].
  apply bind_inv in E. destruct E as (raw & _ & E).
  assert (exists sls mi d, slicesShape (isClosed pl) sls /\ stitchOffsetSlicesTogether sls (isClosed pl) mi d = Ok rs) as (sls & mi & d & Hs & Es).
  { destruct (isClosed pl && negb h).
    - apply bind_inv in E. destruct E as (sls & E1 & E). exists sls. do 2 eexists. split; [left; eapply slices_shape; eauto|exact E].
    - apply bind_inv in E. destruct E as (dual & _ & E). apply bind_inv in E. destruct E as (sls & E1 & E). exists sls. do 2 eexists. split; [eapply dual_shape; eauto|exact E]. }
  apply stitch_shape in Es; [|auto]. destruct Es as [H|(Hc & p & -> & Ho & Hv)].
  - rewrite List.Forall_forall in H. split; intros p Hp; destruct (H p Hp) as (A & B & C); auto.
  - split; intros q [<-|[]]; [split; [auto|congruence]|]. intros _. right. auto.
Qed.
End Shape.
