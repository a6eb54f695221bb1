(** C63: the circles about the end points of an open polyline, of the offset distance, cut the raw offset exactly where they meet it
    (offsetCircleIntersectsWithPline, polylineoffset.hpp:384-455). *)
From Coq Require Import ZArith Reals Lra Lia List Bool Arith Permutation.
From Verif Require Import Base Num MathUtils PlineSegment SpatialIndex IndexTree IndexQuery PropsIndex Polyline Intersects Combine Offset StdLaws RGeom Spec PropsMath ArcGeom Polar PropsSegment PropsClosest PropsIntr PropsPlineIntr PropsPolyline PropsPlineIndex PropsCombine PropsArcJoins PropsParallelTotal.
Import ListNotations.
Open Scope R_scope.

(** ** Specification *)

(** the line through [p0] and [p1] at parameter [s] is nearest to [c], and touches the circle ([c], [r]) within the tolerance *)
Definition touchesAt (p0 p1 c : vec) (r s : R) : Prop :=
  (forall t, dist c (lerp p0 p1 s) <= dist c (lerp p0 p1 t)) /\ 4 * len2 p0 p1 * Rabs (power c r (lerp p0 p1 s)) < eps.

(** the point [p] of the segment v1 v2 is a cut: it is not at the start of the segment, and on the circle or where the segment
    touches it within the tolerance *)
Definition cutOK (v1 v2 : vertex) (c : vec) (r : R) (p : vec) : Prop :=
  (isLine v1 /\ exists t, 1 / 100000 < t <= 1 /\ p = lerp (pos v1) (pos v2) t /\
     (dist c p = r \/ touchesAt (pos v1) (pos v2) c r t)) \/
  (~ isLine v1 /\ ~ (Rabs (vx (pos v1) - vx p) < 1 / 100000 /\ Rabs (vy (pos v1) - vy p) < 1 / 100000) /\
     exists a, arcCentre (pos v1) (pos v2) (bulge v1) a /\ inSector eps v1 v2 a p /\
       (onBoth a (dist a (pos v1)) c r p \/
        ((forall q, ~ onBoth a (dist a (pos v1)) c r q) /\
         0 <= dist a p - dist a (pos v1) <= eps * Rmax 1 ((dist a (pos v1) + r) / dist a c) /\
         0 <= dist c p - r <= eps * Rmax 1 ((dist a (pos v1) + r) / dist a c)))).

(** the point [p] of the segment v1 v2, on the circle, must be a cut: it is not at the start of the segment, and the segment is
    not nearly tangent to the circle elsewhere *)
Definition mustCut (v1 v2 : vertex) (c : vec) (r : R) (p : vec) : Prop :=
  dist c p = r /\
  ((isLine v1 /\ eps <= len2 (pos v1) (pos v2) /\ exists t, 1 / 100000 < t <= 1 /\ p = lerp (pos v1) (pos v2) t /\
      forall s, touchesAt (pos v1) (pos v2) c r s -> s = t) \/
   (~ isLine v1 /\ onSeg v1 v2 p /\ ~ (Rabs (vx (pos v1) - vx p) < 1 / 100000 /\ Rabs (vy (pos v1) - vy p) < 1 / 100000) /\
      exists a, arcCentre (pos v1) (pos v2) (bulge v1) a /\ ~ (dist a c < eps /\ Rabs (dist a (pos v1) - r) < eps) /\
        forall q, onBoth a (dist a (pos v1)) c r q -> Rabs (vx q - vx p) < eps -> Rabs (vy q - vy p) < eps -> q = p)).

Definition okSegs (raw : polyline) : Prop := forall i, (i < segCount raw)%nat -> isLine (at_ raw i) \/ okArc (at_ raw i) (at_ raw (i + 1)).

Lemma in_keep {A} (b : bool) (x y : A) : In x (if b then [y] else []) <-> b = true /\ x = y.
Proof. destruct b; cbn; intuition congruence. Qed.

(** one segment *)
Lemma seg_cuts raw r c i : 0 <= r -> isClosed raw = false -> (2 <= length (vertexes raw))%nat -> (i < segCount raw)%nat -> okSegs raw ->
  exists new, (forall out, circleIntrSeg raw r c out i = Ok (out ++ new)) /\
    (forall k p, In (k, p) new -> k = i /\ cutOK (at_ raw i) (at_ raw (i + 1)) c r p) /\
    (forall p, mustCut (at_ raw i) (at_ raw (i + 1)) c r p -> In (i, p) new).
Proof.
  intros Hr Hc Hn Hi Hok. pose proof (Hok i Hi) as Hs. rewrite segCount_eq, Hc in Hi by auto. unfold circleIntrSeg. rewrite !at_get by lia. cbn [bind].
  set (v1 := at_ raw i) in *. set (v2 := at_ raw (i + 1)) in *.
  destruct (bulgeIsZero v1) eqn:Ez.
  - apply bulgeIsZero_R in Ez. pose proof (C18_line_circle (pos v1) (pos v2) c r Hr) as H18.
    assert (KS : forall t p k, (dist c (lerp (pos v1) (pos v2) t) = r \/ touchesAt (pos v1) (pos v2) c r t) ->
       In (k, p) (if negb (falseIntersect t) && Rltb (1 / 100000) (Rabs t) then [(i, pointFromParametric (pos v1) (pos v2) t)] else []) -> k = i /\ cutOK v1 v2 c r p).
    { intros t p k Ht H. apply in_keep in H. destruct H as [H E]. injection E as -> ->. rewrite pfp_lerp. split; [auto|]. left. split; [auto|].
      apply andb_true_iff in H. destruct H as [H1 H2]. apply negb_true_iff in H1. apply false_R in H1. rewrite Rltb_spec, Rabs_right in H2 by lra. exists t. split; [lra|]. auto. }
    assert (KC : forall t, 1 / 100000 < t <= 1 -> In (i, lerp (pos v1) (pos v2) t) (if negb (falseIntersect t) && Rltb (1 / 100000) (Rabs t) then [(i, pointFromParametric (pos v1) (pos v2) t)] else [])).
    { intros t Ht. apply in_keep. rewrite pfp_lerp. split; [|auto]. apply andb_true_iff. split; [apply negb_true_iff, false_R; lra|]. rewrite Rltb_spec, Rabs_right; lra. }
    destruct (intrLineSeg2Circle2 (pos v1) (pos v2) r c) as [|s|s0 s1].
    + exists []. split; [intros; now rewrite app_nil_r|]. split; [intros k p []|]. intros p (Hd & [(_ & Hl & t & Ht & -> & _)|(Hl & _)]); [|contradiction]. exfalso. destruct H18 as [[_ H]|[H _]]; [|lra]. specialize (H t). lra.
    + eexists. split; [intros; reflexivity|]. split.
      * intros k p H. destruct H18 as [(_ & Hf & Hp)|(_ & -> & _)].
        -- apply KS in H; [auto|]. right. split; auto.
        -- apply in_keep in H. destruct H as [H _]. apply andb_true_iff in H. destruct H as [_ H]. exfalso. revert H. rcbn. rewrite Rltb_spec, Rabs_R0. lra.
      * intros p (Hd & [(_ & Hl & t & Ht & -> & Hu)|(Hl & _)]); [|contradiction]. destruct H18 as [(_ & Hf & Hp)|(H & _)]; [|lra]. assert (s = t) by (apply Hu; split; auto). subst s. now apply KC.
    + destruct H18 as (_ & _ & H18). eexists. split; [intros; reflexivity|]. split.
      * intros k p H. apply in_app_or in H. destruct H as [H|H]; apply KS in H; auto; left; apply H18; auto.
      * intros p (Hd & [(_ & Hl & t & Ht & -> & Hu)|(Hl & _)]); [|contradiction]. apply H18 in Hd. apply in_or_app. destruct Hd as [->| ->]; [left|right]; now apply KC.
  - apply bulgeIsZero_false in Ez. destruct Hs as [Hs|Hs]; [contradiction|]. pose proof (notLine_ne _ Ez) as Nb. set (a := ctr (pos v1) (pos v2) (bulge v1)).
    assert (Ha : arcCentre (pos v1) (pos v2) (bulge v1) a) by (apply ctr_spec; auto). destruct (arc_data v1 v2 a Hs Ha) as (_ & Ec & Er & Hra). rewrite Er.
    set (keep := fun p => if negb (fuzzyEqual (pos v1) p realPrecision) && pointWithinArcSweepAngle (center (arcRadiusAndCenter v1 v2)) (pos v1) (pos v2) (bulge v1) p then [(i, p)] else []).
    assert (KS : forall q p k, (onBoth a (dist a (pos v1)) c r q \/
        ((forall q, ~ onBoth a (dist a (pos v1)) c r q) /\
         0 <= dist a q - dist a (pos v1) <= eps * Rmax 1 ((dist a (pos v1) + r) / dist a c) /\
         0 <= dist c q - r <= eps * Rmax 1 ((dist a (pos v1) + r) / dist a c))) ->
       In (k, p) (keep q) -> k = i /\ cutOK v1 v2 c r p).
    { intros q p k Hq H. apply in_keep in H. destruct H as [H E]. injection E as -> ->. split; [auto|]. right. split; [auto|].
      apply andb_true_iff in H. destruct H as [H1 H2]. apply negb_true_iff in H1. apply within_iff in H2; [|auto]. split.
      - intros K. apply (fuzzyEqual_R (pos v1) q (1 / 100000)) in K. rewrite prec_R in H1. congruence.
      - exists a. auto. }
    assert (KC : forall p, onSeg v1 v2 p -> ~ (Rabs (vx (pos v1) - vx p) < 1 / 100000 /\ Rabs (vy (pos v1) - vy p) < 1 / 100000) -> In (i, p) (keep p)).
    { intros p Hp Hf. apply in_keep. split; [|auto]. apply andb_true_iff. split.
      - apply negb_true_iff. rewrite prec_R. destruct (fuzzyEqual (pos v1) p (1 / 100000)) eqn:E; [|auto]. apply fuzzyEqual_R in E. contradiction.
      - apply within_iff; [auto|]. apply sector_exact in Hp; [|auto]. unfold inSector. pose proof eps_pos. lra. }
    rewrite Ec. assert (Ek : forall p, (if negb (fuzzyEqual (pos v1) p realPrecision) && pointWithinArcSweepAngle a (pos v1) (pos v2) (bulge v1) p then [(i, p)] else []) = keep p) by (intros p; unfold keep; now rewrite Ec).
    pose proof (C19_circle_circle a c (dist a (pos v1)) r Hra Hr) as H19. pose proof (C19_coincident_iff a c (dist a (pos v1)) r) as HC.
    assert (HM : forall p, mustCut v1 v2 c r p -> onBoth a (dist a (pos v1)) c r p /\ In (i, p) (keep p) /\ ~ (dist a c < eps /\ Rabs (dist a (pos v1) - r) < eps) /\
        forall q, onBoth a (dist a (pos v1)) c r q -> Rabs (vx q - vx p) < eps -> Rabs (vy q - vy p) < eps -> q = p).
    { intros p (Hd & [(Hl & _)|(_ & Hp & Hf & a' & Ha' & Hcc & Hu)]); [contradiction|]. destruct (arc_data v1 v2 a' Hs Ha') as (Ea & _). fold a in Ea. subst a'.
      split; [|split; [now apply KC|auto]]. split; [|auto]. apply sector_exact in Hp; [|auto]. apply Hp. }
    clearbody keep.
    destruct (intrCircle2Circle2 (dist a (pos v1)) a r c) as [|p0|p0 q0|].
    + exists []. split; [intros; now rewrite app_nil_r|]. split; [intros k p []|]. intros p Hp. apply HM in Hp. destruct (H19 p). tauto.
    + rewrite Ek. eexists. split; [intros; reflexivity|]. split.
      * intros k p H. apply KS in H; [auto|]. destruct H19 as [[H1 _]|H1]; [now left|right; auto].
      * intros p Hp. apply HM in Hp. destruct Hp as (Hb & Hk & _ & Hu). destruct H19 as [[H1 H2]|[H1 _]]; [|destruct (H1 p Hb)]. destruct (H2 p Hb) as [X Y]. rewrite (Hu p0 H1 X Y). auto.
    + rewrite !Ek. destruct H19 as [_ H19]. eexists. split; [intros; reflexivity|]. split.
      * intros k p H. apply in_app_or in H. destruct H as [H|H]; apply KS in H; auto; left; apply H19; auto.
      * intros p Hp. apply HM in Hp. destruct Hp as (Hb & Hk & _). apply H19 in Hb. apply in_or_app. destruct Hb as [<-|<-]; auto.
    + exists []. split; [intros; now rewrite app_nil_r|]. split; [intros k p []|]. intros p Hp. apply HM in Hp. destruct HC as [HC _]. specialize (HC eq_refl). tauto.
Qed.

(** ** C63 *)
Theorem C63_end_cuts raw offset c : indexable raw -> isClosed raw = false -> okSegs raw ->
  exists ix, createApproxSpatialIndex raw = Ok ix /\ forall out, exists new, offsetCircleIntersectsWithPline raw offset c ix out = Ok (out ++ new) /\
    (forall i p, In (i, p) new -> (i < segCount raw)%nat /\ cutOK (at_ raw i) (at_ raw (i + 1)) c (Rabs offset) p) /\
    (forall i p, (i < segCount raw)%nat -> mustCut (at_ raw i) (at_ raw (i + 1)) c (Rabs offset) p -> In (i, p) new).
Proof.
  intros Hix Hc Hok. assert (Hn : (2 <= length (vertexes raw))%nat) by apply Hix. destruct (pline_index raw Hix) as (ix & Eix & Hq & _). exists ix. split; [exact Eix|]. intros out.
  pose proof (Rabs_pos offset) as Hr.
  destruct (Hq (mkAABB (vx c) (vy c) (vx c) (vy c)) (Rabs offset)) as (l & Nl & Hl & Hv). cbn [xMin yMin xMax yMax] in Hv.
  unfold offsetCircleIntersectsWithPline.
  assert (Eq : query defaultNodeSize ix (Fin (vx c - Rabs offset)) (Fin (vy c - Rabs offset)) (Fin (vx c + Rabs offset)) (Fin (vy c + Rabs offset)) [] = Ok l).
  { unfold query. rewrite Hv. rewrite (runVisitor_true (fun rs i => rs ++ [i])). cbn [snd]. f_equal.
    assert (G : forall (l a : list nat), fold_left (fun rs i => rs ++ [i]) l a = a ++ l).
    { clear. induction l as [|x l IH]; intros a; cbn [fold_left]; [now rewrite app_nil_r|]. rewrite IH. now rewrite <- app_assoc. }
    now rewrite G. }
  match goal with |- context [bind ?m _] => assert (E : m = Ok l) by exact Eq; rewrite E end. cbn [bind]. clear E.
  assert (G : forall l out, (forall i, In i l -> (i < segCount raw)%nat) -> exists new, mfold (circleIntrSeg raw (Rabs offset) c) l out = Ok (out ++ new) /\
     (forall i p, In (i, p) new -> (i < segCount raw)%nat /\ cutOK (at_ raw i) (at_ raw (i + 1)) c (Rabs offset) p) /\
     (forall i p, In i l -> mustCut (at_ raw i) (at_ raw (i + 1)) c (Rabs offset) p -> In (i, p) new)).
  { clear -Hc Hn Hok Hr. induction l as [|i l IH]; intros out H.
    - exists []. rewrite app_nil_r. split; [reflexivity|]. split; [intros k p []|intros i p []].
    - cbn [mfold]. destruct (seg_cuts raw (Rabs offset) c i Hr Hc Hn (H i (or_introl eq_refl)) Hok) as (n1 & E1 & S1 & C1). rewrite E1. cbn [bind].
      destruct (IH (out ++ n1) (fun j Hj => H j (or_intror Hj))) as (n2 & -> & S2 & C2). exists (n1 ++ n2). rewrite app_assoc. split; [reflexivity|]. split.
      + intros k p Hkp. apply in_app_or in Hkp. destruct Hkp as [Hkp|Hkp]; [|auto]. apply S1 in Hkp. destruct Hkp as [-> Hkp]. split; [|auto]. apply H. now left.
      + intros k p [<-|Hk] Hm; apply in_or_app; auto. }
  destruct (G l out ltac:(intros i Hi; now apply Hl in Hi)) as (new & E & S & C). exists new. split; [exact E|]. split; [exact S|].
  intros i p Hi Hm. apply C; [|auto]. apply Hl. split; [auto|]. clear G E S C Hv Eq.
  assert (Hb : Rabs (bulge (at_ raw i)) <= 1). { destruct (Hok i Hi) as [H|H]; [unfold isLine in H; lra|apply H]. }
  assert (Hs : onSeg (at_ raw i) (at_ raw (i + 1)) p).
  { destruct Hm as (_ & [(Hli & _ & t & Ht & -> & _)|(_ & Hs & _)]); [|auto]. exists t. split; [lra|]. left. auto. }
  assert (Ei : nextI raw i = (i + 1)%nat). { rewrite segCount_eq, Hc in Hi by auto. unfold nextI, nextWrappingIndex. destruct (Nat.eqb_spec (S i) (length (vertexes raw))); lia. }
  pose proof (C15_bounding_box _ _ _ Hb Hs) as HB. destruct Hm as (Hd & _). unfold boxesMeet, sbox. rewrite Ei. cbn [xMin yMin xMax yMax]. destruct HB as [HX HY].
  assert (D : Rabs (vx c - vx p) <= Rabs offset /\ Rabs (vy c - vy p) <= Rabs offset).
  { rewrite <- Hd. unfold dist. set (x := vx c - vx p). set (y := vy c - vy p). clearbody x y.
    split; rewrite <- sqrt_Rsqr_abs; apply sqrt_le_1_alt; unfold Rsqr; pose proof (sq_nonneg x); pose proof (sq_nonneg y); lra. }
  destruct D as [D1 D2]. revert D1 D2. generalize (Rabs offset). intros r D1 D2. split_Rabs; lra.
Qed.

(** ** The hypotheses are met *)

(** a half circle about the origin from (1,0) to (-1,0), then a line to (-1,-4); the circle about (0,5/4) of radius 3/4 cuts the
    half circle at (3/5,4/5) and (-3/5,4/5), and the circle about (-1,-2) of radius 1 cuts the line at (-1,-1) and (-1,-3) *)
Definition rawEx : polyline := mkPline false [mkVertex 1 0 1; mkVertex (-1) 0 0; mkVertex (-1) (-4) 0].

Lemma dist_eqR p q r : 0 <= r -> (vx p - vx q) * (vx p - vx q) + (vy p - vy q) * (vy p - vy q) = r * r -> dist p q = r.
Proof. intros Hr H. unfold dist. apply Rsqr_inj; [apply sqrt_pos|auto|]. rewrite Rsqr_sqrt by (pose proof (sq_nonneg (vx p - vx q)); pose proof (sq_nonneg (vy p - vy q)); lra). unfold Rsqr. lra. Qed.
Lemma dist_sqR p q r : dist p q = r -> (vx p - vx q) * (vx p - vx q) + (vy p - vy q) * (vy p - vy q) = r * r.
Proof. intros <-. unfold dist. rewrite sqrt_sqrt by (pose proof (sq_nonneg (vx p - vx q)); pose proof (sq_nonneg (vy p - vy q)); lra). ring. Qed.

Lemma rawEx_arc : okArc (at_ rawEx 0) (at_ rawEx 1) /\ arcCentre (mkV 1 0) (mkV (-1) 0) 1 (mkV 0 0).
Proof.
  assert (Hl : ~ isLine (mkVertex 1 0 1)) by (unfold isLine; cbn; rewrite Rabs_R1; lra).
  split.
  - cbn [at_ nth vertexes rawEx]. split; [exact Hl|]. split; [cbn; rewrite Rabs_R1; lra|]. cbn. intros E. injection E. lra.
  - unfold arcCentre, sweep. rewrite atan_1. unfold rot. replace (4 * (PI / 4)) with PI by field. rewrite cos_PI, sin_PI. apply vec_eq; rcbn; ring.
Qed.

Example C63_hypotheses_met : indexable rawEx /\ isClosed rawEx = false /\ okSegs rawEx /\ segCount rawEx = 2%nat /\
  mustCut (at_ rawEx 0) (at_ rawEx 1) (mkV 0 (5 / 4)) (3 / 4) (mkV (3 / 5) (4 / 5)) /\
  mustCut (at_ rawEx 1) (at_ rawEx 2) (mkV (-1) (-2)) 1 (mkV (-1) (-3)).
Proof.
  destruct rawEx_arc as [Ok0 Ctr]. assert (Sc : segCount rawEx = 2%nat) by reflexivity.
  split; [split; [cbn; lia|split; [rewrite ?Sc; cbn; lia|left; rewrite ?Sc; cbn; lia]]|]. split; [reflexivity|].
  split; [|split; [exact Sc|split]].
  - intros i Hi. rewrite Sc in Hi. destruct i as [|[|]]; [right; exact Ok0|left|lia]. unfold isLine. cbn. rewrite Rabs_R0. lra.
  - split; [apply dist_eqR; cbn; lra|]. right. split; [apply Ok0|]. split; [|split].
    + apply sector_exact; [exact Ok0|]. assert (E : ctr (pos (at_ rawEx 0)) (pos (at_ rawEx 1)) (bulge (at_ rawEx 0)) = mkV 0 0).
      { symmetry. apply ctr_unique; [cbn; lra|]. exact Ctr. }
      rewrite E. cbn [rawEx at_ nth vertexes mkVertex pos bulge]. unfold sgn, cross. cbn [vx vy].
      assert (D1 : dist (mkV 0 0) (mkV (3 / 5) (4 / 5)) = 1) by (apply dist_eqR; cbn; lra). assert (D2 : dist (mkV 0 0) (mkV 1 0) = 1) by (apply dist_eqR; cbn; lra).
      split; [exact (eq_trans D1 (eq_sym D2))|]. destruct (Rlt_dec 0 1); lra.
    + cbn. intros [H _]. split_Rabs; lra.
    + exists (mkV 0 0). split; [exact Ctr|]. assert (D2 : dist (mkV 0 0) (pos (at_ rawEx 0)) = 1) by (apply dist_eqR; cbn; lra). rewrite D2. split.
      * intros [H _]. assert (D : dist (mkV 0 0) (mkV 0 (5 / 4)) = 5 / 4) by (apply dist_eqR; cbn; lra). rewrite D in H. unfold eps in H. lra.
      * intros [x y] [H1 H2]. apply dist_sqR in H1, H2. cbn [vx vy] in *. intros X Y. assert (Ey : y = 4 / 5) by lra. subst y.
        assert (Ex : (x - 3 / 5) * (x + 3 / 5) = 0) by lra. apply Rmult_integral in Ex. unfold eps in X. destruct Ex as [Ex|Ex]; [f_equal; lra|]. exfalso. split_Rabs; lra.
  - split; [apply dist_eqR; cbn; lra|]. left. split; [unfold isLine; cbn; rewrite Rabs_R0; lra|]. split; [unfold len2, eps; cbn; lra|]. exists (3 / 4). split; [lra|]. split.
    + unfold lerp. apply vec_eq; cbn; field.
    + intros s [Hf Hp]. exfalso. specialize (Hf (1 / 2)). cbn [rawEx at_ nth vertexes mkVertex pos] in *.
      assert (D : dist (mkV (-1) (-2)) (lerp (mkV (-1) 0) (mkV (-1) (-4)) (1 / 2)) = 0) by (apply dist_eqR; cbn; lra). rewrite D in Hf.
      assert (Hs : dist (mkV (-1) (-2)) (lerp (mkV (-1) 0) (mkV (-1) (-4)) s) = 0) by (pose proof (sqrt_pos ((vx (mkV (-1) (-2)) - vx (lerp (mkV (-1) 0) (mkV (-1) (-4)) s)) ^ 2 + (vy (mkV (-1) (-2)) - vy (lerp (mkV (-1) 0) (mkV (-1) (-4)) s)) ^ 2)) as P; unfold dist in *; lra).
      apply dist_sqR in Hs. unfold lerp in Hs. cbn [vx vy] in Hs. assert (Es : (s - 1 / 2) * (s - 1 / 2) = 0) by lra. apply Rmult_integral in Es. assert (s = 1 / 2) by (destruct Es; lra). subst s.
      unfold power, len2, lerp, eps in Hp. cbn [vx vy] in Hp. revert Hp. match goal with |- context [Rabs ?e] => replace e with (-1) by lra end. rewrite Rabs_left by lra. lra.
Qed.
