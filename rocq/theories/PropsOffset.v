(** * C37: the distance test of the offset algorithm *)
From Coq Require Import ZArith Reals Lra Lia List Bool Arith Permutation.
From Verif Require Import Base Num MathUtils PlineSegment SpatialIndex IndexTree IndexQuery PropsIndex Polyline Intersects Combine Offset RGeom Spec PropsMath ArcGeom Polar PropsSegment PropsClosest PropsIntr PropsPlineIntr PropsPolyline PropsExtents PropsPlineClosest PropsPlineIndex PropsRegion PropsBoolean.
Import ListNotations.
Open Scope R_scope.

(** visiting with a test that stops at the first failure computes the conjunction *)
Lemma visit_all (g : nat -> bool) l : forall b0 : bool, snd (runVisitor (fun (_ : res bool) i => (g i, Ok (g i))) (Ok b0) l) = Ok (match l with [] => b0 | _ => forallb g l end).
Proof.
  induction l as [|i l IH]; intros b0; [reflexivity|]. cbn [runVisitor forallb]. destruct (g i) eqn:E; cbn [andb].
  - rewrite IH. destruct l; reflexivity.
  - reflexivity.
Qed.

Lemma runVisitor_ext {St A} (f g : St -> A -> bool * St) l : (forall st a, In a l -> f st a = g st a) -> forall st, runVisitor f st l = runVisitor g st l.
Proof.
  induction l as [|a l IH]; intros H st; [reflexivity|]. cbn [runVisitor]. rewrite (H st a) by now left. destruct (g st a) as [[] st']; [|reflexivity].
  apply IH. intros; apply H; now right.
Qed.

(** [p] is within the 1e-8 tolerance of a side of the sector of the arc v1 -> v2 (where the point chosen by closestPointOnSeg need not be on
    the arc, see C14_arc_off_refuted) *)
Definition nearSectorSide (v1 v2 : vertex) (p : vec) : Prop :=
  ~ isLine v1 /\ exists c, arcCentre (pos v1) (pos v2) (bulge v1) c /\
    (Rabs ((vx (pos v1) - vx c) * (vy p - vy c) - (vy (pos v1) - vy c) * (vx p - vx c)) < 1 / 100000000 \/
     Rabs ((vx (pos v2) - vx c) * (vy p - vy c) - (vy (pos v2) - vy c) * (vx p - vx c)) < 1 / 100000000).

Lemma closest_on_or_near v1 v2 p : isLine v1 \/ okArc v1 v2 -> onSeg v1 v2 (closestPointOnSeg v1 v2 p) \/ nearSectorSide v1 v2 p.
Proof.
  intros [L|(Hl & Hb & Hne)]; [left; now apply C14_line|].
  destruct (fuzzyEqual p (center (arcRadiusAndCenter v1 v2)) (1 / 100000000)) eqn:F; [left; now apply C14_arc_centre|].
  pose proof (notLine_ne _ Hl) as Hb0.
  destruct (C14_arc v1 v2 p Hl Hb Hne F) as [_ H]. rewrite center_R in H by auto.
  set (c := ctr (pos v1) (pos v2) (bulge v1)) in *.
  destruct (Rlt_dec (Rabs (leftExpr c (pos v1) p)) (1 / 100000000)) as [A|A]; [|destruct (Rlt_dec (Rabs (leftExpr c (pos v2) p)) (1 / 100000000)) as [B|B]].
  1, 2: right; split; [auto|]; exists c; split; [now apply ctr_spec|]; unfold leftExpr in *; rcbn; auto.
  left. apply H. right. split; apply Rnot_lt_le; auto.
Qed.

(** The test with the index of the original polyline succeeds; with D = |offset| - 1e-4:
    - if it accepts p, every point of the polyline is farther than D from p, up to the 1e-4 slack of the per-segment computation; and the
      bound is exact on arcs (unless p is the centre up to 1e-8) and for every per-segment nearest point that lies on its segment;
    - if it rejects p, the nearest point computed for some segment is within D of p, and it is a point of the polyline unless p is within 1e-8 of a
      side of that arc's sector. *)
Theorem C37_offset_distance pl p offset : indexable pl -> okPath pl -> smallBulges pl -> 1 / 10000 <= Rabs offset ->
  let D := Rabs offset - 1 / 10000 in
  exists ix b, createApproxSpatialIndex pl = Ok ix /\ pointValidForOffset defaultNodeSize pl offset ix p = Ok b /\
    (b = true ->
       (forall q, onPath pl q -> D - 1 / 10000 < dist p q) /\
       (forall v1 v2, In (v1, v2) (pathSegs pl) ->
          (onSeg v1 v2 (closestPointOnSeg v1 v2 p) -> D < dist p (closestPointOnSeg v1 v2 p)) /\
          (okArc v1 v2 -> fuzzyEqual p (center (arcRadiusAndCenter v1 v2)) (1 / 100000000) = false -> forall q, onSeg v1 v2 q -> D < dist p q))) /\
    (b = false -> exists v1 v2, In (v1, v2) (pathSegs pl) /\ dist p (closestPointOnSeg v1 v2 p) <= D /\
       (onSeg v1 v2 (closestPointOnSeg v1 v2 p) \/ nearSectorSide v1 v2 p)).
Proof.
  intros Hix Hok Hsm Hoff D. destruct (pline_index pl Hix) as (ix & Eix & Hq & _).
  assert (Hn : (2 <= length (vertexes pl))%nat) by apply Hix.
  destruct (Hq (mkAABB (vx p) (vy p) (vx p) (vy p)) D) as (l & Nl & Hl & Hv). cbn [xMin yMin xMax yMax] in Hv.
  set (cp := fun i => closestPointOnSeg (at_ pl i) (at_ pl (nextI pl i)) p).
  set (g := fun i => Rltb (D * D) (dist p (cp i) * dist p (cp i))).
  exists ix, (match l with [] => true | _ => forallb g l end). split; [exact Eix|]. split.
  { unfold pointValidForOffset. rcbn. fold D.
    match goal with |- context [visitQuery _ _ _ _ _ _ ?vis _] => set (visitor := vis) end.
    match goal with |- context [bind ?m _] => assert (E : m = Ok (snd (runVisitor visitor (Ok true) l))) by exact (Hv (res bool) visitor (Ok true)); rewrite E end. cbn [bind].
    rewrite (runVisitor_ext visitor (fun (_ : res bool) i => (g i, Ok (g i)))).
    - apply visit_all.
    - intros st i Hi. apply Hl in Hi. destruct Hi as [Hi _]. destruct (seg_in_range pl i Hn Hi) as [H1 H2]. unfold visitor, size. fold (nextI pl i).
      rewrite !at_get by auto. cbn [bind].
      assert (Ed : distSquared (closestPointOnSeg (at_ pl i) (at_ pl (nextI pl i)) p) p = dist p (cp i) * dist p (cp i)).
      { fold (cp i). rewrite dist_sq. unfold distSquared, dot, vsub. rcbn. rring. }
      rewrite Ed. reflexivity. }
  assert (Segs : forall v1 v2, In (v1, v2) (pathSegs pl) <-> exists i, (i < segCount pl)%nat /\ v1 = at_ pl i /\ v2 = at_ pl (nextI pl i)).
  { intros v1 v2. split.
    - intros Hin. pose proof (Permutation_in _ (Permutation_sym (vsegs_perm pl)) Hin) as Hvs. unfold vsegs in Hvs. apply in_map_iff in Hvs.
      destruct Hvs as ([i j] & Eij & Hij). cbn [fst snd] in Eij. injection Eij as <- <-. apply segs_iff in Hij. destruct Hij as (_ & Hi & ->). exists i. auto.
    - intros (i & Hi & -> & ->). apply (Permutation_in _ (vsegs_perm pl)). unfold vsegs. apply in_map_iff. exists (i, nextI pl i). split; [reflexivity|]. apply segs_iff. auto. }
  assert (HD : 0 <= D) by (unfold D; lra).
  assert (Box : forall i q, (i < segCount pl)%nat -> onSeg (at_ pl i) (at_ pl (nextI pl i)) q -> dist p q <= D -> In i l).
  { intros i q Hi Hqs Hd. apply Hl. split; [auto|].
    assert (Hb : Rabs (bulge (at_ pl i)) <= 1) by (eapply (seg_start_small pl); [auto|apply Segs; eauto]).
    pose proof (C15_bounding_box _ _ _ Hb Hqs) as Hbox. unfold inBox in Hbox. fold (sbox pl i) in Hbox. unfold boxesMeet. cbn [xMin yMin xMax yMax].
    assert (Hsq : (vx p - vx q) * (vx p - vx q) + (vy p - vy q) * (vy p - vy q) <= D * D).
    { rewrite <- dist_sq. pose proof (PropsClosest.dist_nonneg p q). nra. }
    assert (Sq : forall a b, a * a + b * b <= D * D -> - D <= a <= D).
    { intros a b H. pose proof (Rle_0_sqr b) as Hs. unfold Rsqr in Hs. split; apply Rnot_lt_le; intros Hc; nra. }
    pose proof (Sq _ _ Hsq). rewrite Rplus_comm in Hsq. pose proof (Sq _ _ Hsq). lra. }
  assert (Gt : forall i, g i = true <-> D < dist p (cp i)).
  { intros i. unfold g. rewrite Rltb_spec. pose proof (PropsClosest.dist_nonneg p (cp i)). split; intros; nra. }
  split.
  - intros Hb.
    assert (Hg : forall i, In i l -> D < dist p (cp i)).
    { intros i Hi. apply Gt. destruct l as [|a l']; [destruct Hi|]. rewrite forallb_forall in Hb. auto. }
    assert (Near : forall v1 v2 q, In (v1, v2) (pathSegs pl) -> onSeg v1 v2 q -> D < dist p q \/ (D < dist p (closestPointOnSeg v1 v2 p))).
    { intros v1 v2 q Hin Hqs. apply Segs in Hin. destruct Hin as (i & Hi & -> & ->).
      destruct (Rlt_dec D (dist p q)) as [|Hd]; [now left|]. right. apply (Hg i). apply (Box i q); auto. lra. }
    split.
    + intros q (v1 & v2 & Hin & Hqs). destruct (Near v1 v2 q Hin Hqs) as [H|H]; [lra|].
      pose proof (seg_closest v1 v2 p q (Hok _ _ Hin) Hqs). lra.
    + intros v1 v2 Hin. split.
      * intros Hon. destruct (Near v1 v2 _ Hin Hon); auto.
      * intros (A1 & A2 & A3) F q Hqs. destruct (Near v1 v2 q Hin Hqs) as [H|H]; [auto|].
        destruct (C14_arc v1 v2 p A1 A2 A3 F) as [H1 _]. specialize (H1 q Hqs). lra.
  - intros Hb.
    assert (exists i, In i l /\ g i = false) as (i & Hi & Gi).
    { destruct l as [|a l']; [discriminate|]. revert Hb. generalize (a :: l') as L. induction L as [|x L IH]; [discriminate|]. cbn [forallb].
      destruct (g x) eqn:E; intros H; [|exists x; split; [now left|auto]]. destruct (IH H) as (y & Hy & Ey). exists y. split; [now right|auto]. }
    apply Hl in Hi. destruct Hi as [Hi _]. exists (at_ pl i), (at_ pl (nextI pl i)). assert (Hin : In (at_ pl i, at_ pl (nextI pl i)) (pathSegs pl)) by (apply Segs; eauto).
    split; [auto|]. split; [|apply closest_on_or_near, Hok, Hin].
    apply Rnot_lt_le. intros H. apply Gt in H. congruence.
Qed.

(** the hypotheses hold for a circle *)
Example C37_circle : indexable (circle 0 2) /\ okPath (circle 0 2) /\ smallBulges (circle 0 2) /\ 1 / 10000 <= Rabs (- 1).
Proof.
  split; [apply circle_indexable|]. split; [|split; [apply circle_small|rewrite Rabs_left; lra]].
  intros v1 v2 H. right. apply (circle_okArc 0 2 ltac:(lra) _ _ H).
Qed.
