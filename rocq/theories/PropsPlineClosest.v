(** * C27: ClosestPoint over a whole polyline *)
From Coq Require Import ZArith Reals Lra Lia List Bool Arith Permutation.
From Verif Require Import Base Num MathUtils PlineSegment SpatialIndex Polyline RGeom Spec PropsMath ArcGeom Polar PropsSegment PropsClosest PropsIntr PropsPlineIntr PropsPolyline PropsExtents.
Import ListNotations.
Open Scope R_scope.

Section C27.
Context (pl : polyline) (p : vec).

Local Notation cpt i j := (closestPointOnSeg (at_ pl i) (at_ pl j) p).

Lemma dot_dist q : dot (vsub p q) (vsub p q) = dist p q * dist p q.
Proof. rewrite dist_sq. unfold dot, vsub. rcbn. ring. Qed.

(** invariant of the visit: the best so far *)
Lemma closest_fold l : forall st,
  let r := foldStop (closest_step pl p) l st in
  (r = st /\ (forall i j, In (i, j) l -> xltb (Fin (dist p (cpt i j) * dist p (cpt i j))) (cpDistance st) = false)) \/
  (exists i j, In (i, j) l /\ cpIndex r = i /\ cpPoint r = cpt i j /\ cpDistance r = Fin (dist p (cpt i j) * dist p (cpt i j)) /\
     xltb (cpDistance r) (cpDistance st) = true /\
     forall i' j', In (i', j') l -> dist p (cpt i j) <= dist p (cpt i' j')).
Proof.
  induction l as [|[i j] l IH]; intros st r; [left; split; [reflexivity|intros ? ? []]|].
  unfold r. cbn [foldStop]. 
  assert (Es : closest_step pl p st i j = (true, if xltb (Fin (dist p (cpt i j) * dist p (cpt i j))) (cpDistance st)
                 then mkCP i (cpt i j) (Fin (dist p (cpt i j) * dist p (cpt i j))) else st)).
  { unfold closest_step. rewrite dot_dist. reflexivity. }
  rewrite Es.
  destruct (xltb (Fin (dist p (cpt i j) * dist p (cpt i j))) (cpDistance st)) eqn:E.
  - right. cbv iota beta. match goal with |- context [foldStop _ l ?s] => specialize (IH s) end. cbv zeta in IH. cbn [cpDistance] in IH.
    set (r' := foldStop _ l _) in *. clearbody r'. clear r.
    destruct IH as [[-> H]|(i' & j' & H1 & H2 & H3 & H4 & H5 & H6)].
    + exists i, j. cbn [cpIndex cpPoint cpDistance]. split; [now left|]. repeat (split; [easy|]).
      intros i' j' [Q|Q]; [injection Q as <- <-; lra|]. specialize (H i' j' Q). cbn in H. rbool. now apply dist_le.
    + exists i', j'. split; [now right|]. do 3 (split; [auto|]). rewrite H4 in *. 
      assert (dist p (cpt i' j') * dist p (cpt i' j') < dist p (cpt i j) * dist p (cpt i j)) by (cbn in H5; rbool; auto).
      split. { cbn in E |- *. destruct (cpDistance st); auto. rbool. apply Rltb_spec. lra. }
      intros a b [Q|Q]; [injection Q as <- <-; apply dist_le; lra|auto].
  - cbv iota beta. specialize (IH st). cbv zeta in IH. set (r' := foldStop _ l _) in *. clearbody r'. clear r.
    destruct IH as [[-> H]|(i' & j' & H1 & H2 & H3 & H4 & H5 & H6)].
    + left. split; [auto|]. intros a b [Q|Q]; [injection Q as <- <-; auto|auto].
    + right. exists i', j'. split; [now right|]. do 4 (split; [auto|]). intros a b [Q|Q]; [injection Q as <- <-|auto].
      rewrite H4 in H5. apply dist_le. destruct (cpDistance st); cbn in E, H5; try discriminate. rbool. lra.
Qed.
End C27.

Lemma next_wrap pl i j : In (i, j) (segs pl) -> nextWrappingIndex i (size pl) = j.
Proof.
  intros H. apply C21_indices in H. unfold nextWrappingIndex, size. destruct H as (H1 & H2 & H3 & [->|(_ & -> & ->)]).
  - destruct (Nat.eqb_spec (S i) (length (vertexes pl))); lia.
  - destruct (Nat.eqb_spec (S (length (vertexes pl) - 1)) (length (vertexes pl))); lia.
Qed.

(** ** C27 *)

(** What is computed for at least two vertices: [r] is the closest of the points chosen on the individual segments, the distance is the
    distance to that point and the index is the start index of the segment of that point - or, when the point is within 1e-8 of the end
    of that segment and there is a following segment, the start index of that following segment.  The result does not depend on the
    previous state of the object. *)
Theorem C27_best_segment (prev : closestPt) (pl : polyline) (p : vec) : (2 <= length (vertexes pl))%nat ->
  exists r, closestPoint_compute prev pl p = Ok r /\
    cpDistance r = Fin (dist p (cpPoint r)) /\
    (forall i j, In (i, j) (segs pl) -> dist p (cpPoint r) <= dist p (closestPointOnSeg (at_ pl i) (at_ pl j) p)) /\
    (exists i j, In (i, j) (segs pl) /\ cpPoint r = closestPointOnSeg (at_ pl i) (at_ pl j) p /\
       (cpIndex r = i \/ (cpIndex r = j /\ fuzzyEqual (cpPoint r) (pos (at_ pl j)) (1 / 100000000) = true))) /\
    (exists j, In (cpIndex r, j) (segs pl)) /\
    (forall prev', closestPoint_compute prev' pl p = Ok r).
Proof.
  intros Hn.
  assert (Main : exists i j, In (i, j) (segs pl) /\
    (forall i' j', In (i', j') (segs pl) -> dist p (closestPointOnSeg (at_ pl i) (at_ pl j) p) <= dist p (closestPointOnSeg (at_ pl i') (at_ pl j') p)) /\
    forall prev, visitSegIndices pl (closest_step pl p) (mkCP (cpIndex prev) (cpPoint prev) xinf) =
      mkCP i (closestPointOnSeg (at_ pl i) (at_ pl j) p)
        (Fin (dist p (closestPointOnSeg (at_ pl i) (at_ pl j) p) * dist p (closestPointOnSeg (at_ pl i) (at_ pl j) p)))).
  { destruct (closest_fold pl p (segs pl) (mkCP (cpIndex prev) (cpPoint prev) xinf)) as [[_ H]|(i & j & H1 & H2 & H3 & H4 & _ & H6)].
    - exfalso. assert (I : In (0, 1)%nat (segs pl)) by (apply C21_indices; lia). specialize (H _ _ I). discriminate.
    - exists i, j. split; [auto|]. split; [auto|]. intros prev'. rewrite C21_visit_order.
      assert (Indep : forall l a b, l <> [] -> foldStop (closest_step pl p) l (mkCP (cpIndex a) (cpPoint a) xinf) =
                                         foldStop (closest_step pl p) l (mkCP (cpIndex b) (cpPoint b) xinf)).
      { intros [|[a b] l] st st' N; [congruence|]. cbn [foldStop]. unfold closest_step at 1 3. cbn [cpDistance]. reflexivity. }
      rewrite (Indep _ prev' prev). 2:{ intros E. rewrite E in H1. destruct H1. }
      set (r := foldStop _ _ _) in *. destruct r as [x y z]. cbn [cpIndex cpPoint cpDistance] in *. congruence. }
  destruct Main as (i & j & Hij & Hmin & Hv).
  pose proof (proj1 (C21_indices pl i j) Hij) as (_ & Hi & Hj & Hcase).
  set (cp := closestPointOnSeg (at_ pl i) (at_ pl j) p) in *.
  set (idx := if fuzzyEqual cp (pos (at_ pl j)) (1 / 100000000) then j else i).
  set (idx' := if negb (isClosed pl) && (1 <? size pl)%nat && (idx =? size pl - 1)%nat then (idx - 1)%nat else idx).
  assert (Comp : forall prev, closestPoint_compute prev pl p = Ok (mkCP idx' cp (Fin (dist p cp)))).
  { intros prev'. unfold closestPoint_compute. destruct (Nat.eqb_spec (size pl) 1); [unfold size in *; lia|].
    rewrite Hv. cbn [cpIndex cpPoint cpDistance]. rewrite (next_wrap pl i j Hij).
    unfold vget. assert (Eg : rget (vertexes pl) j = Ok (at_ pl j)).
    { unfold rget, at_. destruct (nth_error (vertexes pl) j) eqn:E.
      - apply (nth_error_nth _ _ vdflt) in E. now rewrite E.
      - apply nth_error_None in E. lia. }
    assert (Esq : xsqrt (Fin (dist p cp * dist p cp)) = Fin (dist p cp)).
    { change (Fin (sqrt (dist p cp * dist p cp)) = Fin (dist p cp)). now rewrite sqrt_square by apply dist_nonneg. }
    rewrite Eg, Esq. cbn [bind]. unfold idx', idx. rcbn. reflexivity. }
  exists (mkCP idx' cp (Fin (dist p cp))). cbn [cpIndex cpPoint cpDistance].
  split; [auto|]. split; [auto|]. split; [auto|].
  assert (Cases : idx' = i \/ (idx' = j /\ fuzzyEqual cp (pos (at_ pl j)) (1 / 100000000) = true /\ (isClosed pl = true \/ j <> size pl - 1)%nat)).
  { unfold idx', idx, size. destruct (fuzzyEqual cp (pos (at_ pl j)) (1 / 100000000)) eqn:F.
    - destruct (isClosed pl) eqn:C; cbn [negb andb]; [right; auto|].
      destruct (Nat.ltb_spec 1 (length (vertexes pl))); [|lia]. cbn [andb]. destruct (Nat.eqb_spec j (length (vertexes pl) - 1)).
      + left. destruct Hcase as [->|(? & _)]; [lia|congruence].
      + right. auto.
    - left. destruct (isClosed pl) eqn:C; cbn [negb andb]; auto.
      destruct (Nat.ltb_spec 1 (length (vertexes pl))); [|lia]. cbn [andb]. destruct (Nat.eqb_spec i (length (vertexes pl) - 1)); auto.
      exfalso. destruct Hcase as [->|(? & _)]; [lia|congruence]. }
  split. { exists i, j. split; [auto|]. split; [auto|]. tauto. }
  split; [|auto].
  destruct Cases as [->|(-> & _ & C)]; [eauto|].
  destruct (Nat.eq_dec j (length (vertexes pl) - 1)) as [E|E].
  - destruct C as [C|C]; [|unfold size in C; congruence]. exists 0%nat. apply C21_indices. repeat split; try lia. right. auto.
  - exists (j + 1)%nat. apply C21_indices. repeat split; try lia.
Qed.

(** one vertex *)
Theorem C27_single (prev : closestPt) (b : bool) (v : vertex) (p : vec) :
  exists r, closestPoint_compute prev (mkPline b [v]) p = Ok r /\ cpIndex r = 0%nat /\ cpPoint r = pos v /\ cpDistance r = Fin (dist p (pos v)).
Proof.
  unfold closestPoint_compute. cbn [size vertexes length Nat.eqb vget rget nth_error bind]. eexists. split; [reflexivity|].
  cbn [cpIndex cpPoint cpDistance]. repeat split. unfold vlength, vsub, dot, dist. rcbn.
  change (inj ?x) with (Fin x). f_equal. f_equal. ring.
Qed.

(** per-segment accuracy, collected from C14 *)
Lemma seg_closest v1 v2 p q : isLine v1 \/ okArc v1 v2 -> onSeg v1 v2 q -> dist p (closestPointOnSeg v1 v2 p) <= dist p q + 1 / 10000.
Proof.
  intros [L|(Hl & Hb & Hne)] Hq.
  - now apply (C14_line v1 v2 p L).
  - destruct (fuzzyEqual p (center (arcRadiusAndCenter v1 v2)) (1 / 100000000)) eqn:F.
    + destruct (C14_arc_centre v1 v2 p Hl Hb Hne F) as [_ H]. specialize (H q Hq). lra.
    + destruct (C14_arc v1 v2 p Hl Hb Hne F) as [H _]. specialize (H q Hq). lra.
Qed.

(** the reported distance is a lower bound (up to 1e-4, the slack of the per-segment computation) of the distance to every point of the path *)
Theorem C27_minimal (pl : polyline) (p : vec) : (2 <= length (vertexes pl))%nat -> okPath pl ->
  exists r, closestPoint pl p = Ok r /\ cpDistance r = Fin (dist p (cpPoint r)) /\
    forall v1 v2 q, In (v1, v2) (pathSegs pl) -> onSeg v1 v2 q -> dist p (cpPoint r) <= dist p q + 1 / 10000.
Proof.
  intros Hn Hok. destruct (C27_best_segment (mkCP 0 vzero xinf) pl p Hn) as (r & E & D & M & _).
  exists r. split; [exact E|]. split; [auto|]. intros v1 v2 q Hin Hq.
  pose proof (Permutation_in _ (Permutation_sym (vsegs_perm pl)) Hin) as Hv. unfold vsegs in Hv. apply in_map_iff in Hv.
  destruct Hv as ([i j] & Eij & Hij). cbn [fst snd] in Eij. injection Eij as <- <-.
  specialize (M i j Hij). pose proof (seg_closest _ _ p q (Hok _ _ Hin) Hq). lra.
Qed.

(** an empty polyline (excluded by the assertion) has no closest point *)
Theorem C27_empty (prev : closestPt) (b : bool) (p : vec) : closestPoint_compute prev (mkPline b []) p = UB.
Proof. unfold closestPoint_compute, vget, rget. cbn [size vertexes length Nat.eqb visitSegIndices Nat.ltb Nat.leb cpIndex]. destruct (nth_error _ _) eqn:E; [|reflexivity]. apply nth_error_In in E. destruct E. Qed.

Example C27_square_hyps : exists pl, (2 <= length (vertexes pl))%nat /\ okPath pl /\ isClosed pl = true.
Proof.
  exists (mkPline true [mkVertex 0 0 0; mkVertex 1 0 0; mkVertex 1 1 1]). split; [cbn; lia|]. split; [|reflexivity].
  intros v1 v2 [H|[H|[H|[]]]]; injection H as <- <-.
  - left. unfold isLine, mkVertex. cbn [bulge]. rewrite Rabs_R0. lra.
  - left. unfold isLine, mkVertex. cbn [bulge]. rewrite Rabs_R0. lra.
  - right. unfold okArc, isLine, mkVertex. cbn [bulge pos]. rewrite Rabs_R1. repeat split; try lra. intros E. injection E. lra.
Qed.
