(** * C35: boolean operations on polylines that do not intersect *)
From Coq Require Import ZArith Reals Lra Lia List Bool Arith Permutation.
From Verif Require Import Base Num MathUtils PlineSegment SpatialIndex PropsIndex Polyline Intersects Combine StdLaws RGeom Spec PropsMath ArcGeom Polar PropsSegment PropsClosest PropsIntr PropsPlineIntr PropsPolyline PropsExtents PropsPlineIndex PropsFindIntr PropsRegion PropsCombine.
Import ListNotations.
Open Scope R_scope.

(** ** Specification *)
(** the region a result describes: inside some remaining polyline and inside no subtracted one *)
Definition region (r : combineResult) (q : vec) : Prop :=
  (exists p, In p (remaining r) /\ insideOf p q) /\ ~ (exists p, In p (subtracted r) /\ insideOf p q).

Definition setOp (mode : combineMode) (a b : Prop) : Prop :=
  match mode with Union => a \/ b | Exclude => a /\ ~ b | Intersect => a /\ b | XOR => (a /\ ~ b) \/ (b /\ ~ a) end.

Section C35.
Context {SL : StdLib}.

(** the library finds no intersect between the two polylines *)
Definition noIntersects (A B : polyline) : Prop :=
  exists ix, createApproxSpatialIndex A = Ok ix /\ findIntersects defaultNodeSize A B ix [] [] = Ok ([], []).

Theorem C35_regions A B mode : closedPline A -> closedPline B -> smallBulges A -> smallBulges B ->
  disjointPaths A B -> noIntersects A B ->
  exists r, combinePolylines A B mode = Ok r /\
    (forall p, In p (remaining r) \/ In p (subtracted r) -> p = A \/ p = B) /\
    forall q, ~ onPath A q -> ~ onPath B q -> region r q <-> setOp mode (insideOf A q) (insideOf B q).
Proof.
  intros (CA & LA) (CB & LB) SA SB Hd (ix & Eix & Ef).
  destruct (vertexes A) as [|a0 al] eqn:EA; [cbn in LA; lia|]. destruct (vertexes B) as [|b0 bl] eqn:EB; [cbn in LB; lia|].
  assert (LA' : (2 <= length (vertexes A))%nat) by (rewrite EA; auto). assert (LB' : (2 <= length (vertexes B))%nat) by (rewrite EB; auto).
  unfold combinePolylines. rewrite Eix. cbn [bind]. unfold processForCombine. rewrite Ef. cbn [bind].
  assert (GA : vget A 0 = Ok a0) by (unfold vget, rget; rewrite EA; reflexivity). assert (GB : vget B 0 = Ok b0) by (unfold vget, rget; rewrite EB; reflexivity).
  rewrite GA, GB. cbn [bind]. unfold completelyCoincident, anyIntersects. cbn [ciStarts ciEnds ciSlices ciIntrs length Nat.eqb negb orb].
  assert (HW : forall pl (p : vec), negb (getWindingNumber pl p =? 0)%Z = true <-> getWindingNumber pl p <> 0%Z).
  { intros pl p. rewrite negb_true_iff, Z.eqb_neq. tauto. }
  assert (HW' : forall pl (p : vec), negb (getWindingNumber pl p =? 0)%Z = false <-> getWindingNumber pl p = 0%Z).
  { intros pl p. rewrite negb_false_iff, Z.eqb_eq. tauto. }
  destruct (negb (getWindingNumber B (pos a0) =? 0)%Z) eqn:IA; [|destruct (negb (getWindingNumber A (pos b0) =? 0)%Z) eqn:IB].
  - apply HW in IA. pose proof (nested A B a0 al SA SB Hd EA IA) as N.
    destruct mode; (eexists; split; [reflexivity|]); cbn [remaining subtracted In]; (split; [intuition congruence|]); intros q OA OB; specialize (N q OB); unfold region, setOp; cbn [remaining subtracted In].
    + split; [intros [(p & [<-|[]] & H) _]; auto|]. intros H. split; [exists B; tauto|]. intros (p & [] & _).
    + split; [intros [(p & [] & _) _]|]. tauto.
    + split; [intros [(p & [<-|[]] & H) _]; auto|]. intros H. split; [exists A; tauto|]. intros (p & [] & _).
    + split.
      * intros [(p & [<-|[]] & H) H2]. right. split; [auto|]. intros H3. apply H2. exists A. auto.
      * intros [H|[H1 H2]]; [tauto|]. split; [exists B; auto|]. intros (p & [<-|[]] & H3). auto.
  - apply HW in IB. pose proof (nested B A b0 bl SB SA (disjoint_sym _ _ Hd) EB IB) as N.
    destruct mode; (eexists; split; [reflexivity|]); cbn [remaining subtracted In]; (split; [intuition congruence|]); intros q OA OB; specialize (N q OA); unfold region, setOp; cbn [remaining subtracted In].
    + split; [intros [(p & [<-|[]] & H) _]; auto|]. intros H. split; [exists A; tauto|]. intros (p & [] & _).
    + split.
      * intros [(p & [<-|[]] & H) H2]. split; [auto|]. intros H3. apply H2. exists B. auto.
      * intros [H1 H2]. split; [exists A; auto|]. intros (p & [<-|[]] & H3). auto.
    + split; [intros [(p & [<-|[]] & H) _]; auto|]. intros H. split; [exists B; tauto|]. intros (p & [] & _).
    + split.
      * intros [(p & [<-|[]] & H) H2]. left. split; [auto|]. intros H3. apply H2. exists B. auto.
      * intros [[H1 H2]|H]; [|tauto]. split; [exists A; auto|]. intros (p & [<-|[]] & H3). auto.
  - apply HW' in IA, IB. pose proof (apart A B a0 al b0 bl SA SB Hd EA EB IA IB) as N.
    destruct mode; (eexists; split; [reflexivity|]); cbn [remaining subtracted In]; (split; [intuition congruence|]); intros q OA OB; specialize (N q); unfold region, setOp; cbn [remaining subtracted In].
    + split; [intros [(p & [<-|[<-|[]]] & H) _]; auto|]. intros H. split; [destruct H; [exists A|exists B]; tauto|]. intros (p & [] & _).
    + split; [intros [(p & [<-|[]] & H) _]; tauto|]. intros [H1 H2]. split; [exists A; tauto|]. intros (p & [] & _).
    + split; [intros [(p & [] & _) _]|]. tauto.
    + split; [intros [(p & [<-|[<-|[]]] & H) _]; tauto|]. intros H. split; [destruct H as [H|H]; [exists A|exists B]; tauto|]. intros (p & [] & _).
Qed.
End C35.

(** ** A concrete case: a circle inside a circle *)
Lemma circle_indexable k r : indexable (circle k r).
Proof. unfold indexable. cbn. split; [lia|]. split; [lia|]. left. lia. Qed.

Lemma circle_okArc k r : 0 < r -> forall v1 v2, In (v1, v2) (pathSegs (circle k r)) ->
  okArc v1 v2 /\ arcCentre (pos v1) (pos v2) (bulge v1) (mkV k 0) /\ dist (mkV k 0) (pos v1) = r.
Proof.
  intros Hr v1 v2 Hin. assert (O : onPath (circle k r) (pos v1)) by (exists v1, v2; split; [auto|apply PropsWinding.seg_ends]). apply (circle_path k r Hr) in O.
  destruct Hin as [E|[E|[]]]; injection E as <- <-; (split; [|split; [|exact O]]).
  - split; [apply A_arc|]. cbn [bulge mkVertex pos]. split; [rewrite Rabs_R1; lra|]. intros E. injection E. lra.
  - rewrite <- (ctr_AB k r). apply ctr_spec. cbn. lra.
  - split; [apply B_arc|]. cbn [bulge mkVertex pos]. split; [rewrite Rabs_R1; lra|]. intros E. injection E. lra.
  - rewrite <- (ctr_BA k r). apply ctr_spec. cbn. lra.
Qed.

Lemma circle_at k r i : (i < 2)%nat -> In (at_ (circle k r) i, at_ (circle k r) (nextI (circle k r) i)) (pathSegs (circle k r)).
Proof. intros Hi. destruct i as [|[|i]]; [left; reflexivity|right; left; reflexivity|lia]. Qed.

Lemma dist_x (x y : R) : dist (mkV x 0) (mkV y 0) = Rabs (x - y).
Proof. unfold dist. cbn [vx vy]. replace ((x - y) ^ 2 + (0 - 0) ^ 2) with (Rsqr (x - y)) by (unfold Rsqr; ring). apply sqrt_Rsqr_abs. Qed.

Lemma circles_no_intersect v1 v2 u1 u2 : In (v1, v2) (pathSegs (circle 1 1)) -> In (u1, u2) (pathSegs (circle 0 3)) -> intrPlineSegs v1 v2 u1 u2 = NoIntersect.
Proof.
  intros H1 H2. destruct (circle_okArc 1 1 ltac:(lra) _ _ H1) as (O1 & C1 & R1). destruct (circle_okArc 0 3 ltac:(lra) _ _ H2) as (O2 & C2 & R2).
  assert (D : dist (mkV 1 0) (mkV 0 0) = 1) by (rewrite dist_x, Rabs_right; lra). assert (D' : dist (mkV 0 0) (mkV 1 0) = 1) by (rewrite dist_x, Rabs_left; lra).
  pose proof (C20_arc_arc v1 v2 u1 u2 _ _ O1 O2 C1 C2) as H. cbv zeta in H. rewrite R1, R2, D in H. destruct H as [H _]; [intros [L _]; unfold eps in L; lra|].
  pose proof (notLine_ne _ (proj1 O1)) as B1. pose proof (notLine_ne _ (proj1 O2)) as B2.
  assert (On : forall p, onArcTol v1 v2 p -> onArcTol u1 u2 p -> False).
  { intros p (c & Hc & Dc & _) (c' & Hc' & Dc' & _). rewrite (ctr_unique _ _ _ _ B1 Hc) in Dc. rewrite (ctr_unique _ _ _ _ B2 Hc') in Dc'. rewrite <- (ctr_unique _ _ _ _ B1 C1) in Dc. rewrite <- (ctr_unique _ _ _ _ B2 C2) in Dc'.
    pose proof (dist_tri (mkV 0 0) (mkV 1 0) p). lra. }
  destruct (intrPlineSegs v1 v2 u1 u2) as [|p|p q|p q|p q]; [reflexivity| | |destruct H|destruct H].
  - destruct H as [[Ha Hb]|(_ & _ & _ & [_ Ha] & [Hb _])]; [destruct (On p Ha Hb)|]. pose proof (dist_tri (mkV 0 0) (mkV 1 0) p).
    replace (Rmax 1 ((1 + 3) / 1)) with 4 in Ha by (rewrite Rmax_right; lra). unfold eps in Ha. lra.
  - destruct H as (_ & Ha & Hb & _). destruct (On p Ha Hb).
Qed.

Example C35_circles {SL : StdLib} : let A := circle 1 1 in let B := circle 0 3 in
  closedPline A /\ closedPline B /\ smallBulges A /\ smallBulges B /\ disjointPaths A B /\ noIntersects A B /\
  insideOf B (mkV (-2) 0) /\ ~ insideOf A (mkV (-2) 0).
Proof.
  intros A B. assert (D' : dist (mkV 0 0) (mkV 1 0) = 1) by (rewrite dist_x, Rabs_left; lra).
  split; [split; [reflexivity|cbn; lia]|]. split; [split; [reflexivity|cbn; lia]|]. split; [apply circle_small|]. split; [apply circle_small|].
  split.
  { intros q [O1 O2]. apply circle_path in O1; [|lra]. apply circle_path in O2; [|lra]. pose proof (dist_tri (mkV 0 0) (mkV 1 0) q). lra. }
  split; [|split].
  - destruct (C30_find_intersects A B (circle_indexable 1 1) ltac:(cbn; lia)) as (ix & _ & intrs & coincs & E1 & E2 & _).
    destruct (C30_sound A B ix intrs coincs (circle_indexable 1 1) ltac:(cbn; lia) E1 E2) as [S1 S2]. exists ix. split; [auto|]. rewrite E2.
    assert (N : forall i1 i2, (i1 < segCount A)%nat -> (i2 < segCount B)%nat -> intrPlineSegs (at_ A i1) (at_ A (nextI A i1)) (at_ B i2) (at_ B (nextI B i2)) = NoIntersect).
    { intros i1 i2 H1 H2. apply circles_no_intersect; apply circle_at; cbn in *; lia. }
    destruct intrs as [|x intrs].
    + destruct coincs as [|x coincs]; [reflexivity|]. destruct (S2 x (or_introl eq_refl)) as (H1 & H2 & H3). unfold overlapsOf in H3. rewrite N in H3 by auto. destruct H3.
    + destruct (S1 x (or_introl eq_refl)) as (H1 & H2 & H3). unfold crossPoints in H3. rewrite N in H3 by auto. destruct H3.
  - apply circle_inside; [lra|]. rewrite dist_x, Rabs_right; lra.
  - intros [_ W]. apply W. apply circle_outside; [lra|]. rewrite dist_x, Rabs_right; lra.
Qed.

(** the hypotheses of C36_returns are met by two overlapping circles *)
Example C36_circles {SL : StdLib} {SLaws : StdLaws SL} mode : exists r, combinePolylines (circle 0 1) (circle 1 1) mode = Ok r /\
  List.Forall closedPline (remaining r) /\ List.Forall closedPline (subtracted r).
Proof. apply C36_returns; [apply circle_indexable|split; [reflexivity|cbn; lia]|split; [reflexivity|cbn; lia]|cbn; lia]. Qed.
