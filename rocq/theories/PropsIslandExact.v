(** * C66: the results of ParallelOffsetIslands::compute are exactly the boundary of the region left over by all input loops *)
From Coq Require Import ZArith Reals Lra Lia List Bool Arith Permutation Sorted.
From Coquelicot Require Import Coquelicot.
From Verif Require Import Base Num MathUtils PlineSegment SpatialIndex IndexTree IndexQuery PropsIndex Polyline Intersects Combine Offset Islands StdLaws RGeom Spec PropsMath ArcGeom Polar PropsSegment PropsClosest PropsIntr PropsPlineIntr PropsPolyline PropsArea Turning PropsWinding PropsRegion PropsPlineIndex PropsExtents PropsCoincident PropsSlices PropsStitch PropsCombine PropsPieces PropsTrace PropsBoolOps PropsEuler PropsOffset PropsOffsetSlices PropsParallelTotal PropsOffsetRuns PropsOffsetCuts PropsCover PropsRunPoints PropsBalance PropsJordan PropsOffsetParts PropsOffsetResult PropsOffsetConst PropsOffsetExact PropsOffsetSide PropsIslands PropsIslandSlices PropsRegionOps PropsManyBalance PropsIslandCuts PropsIslandBoxes.
Import ListNotations.
Open Scope R_scope.

(** ** Specification *)
(** loop [i] has the point [q] in common with another loop *)
Definition meeting (L : list offsetLoop) (i : nat) (q : vec) : Prop :=
  exists j li lj, nth_error L i = Some li /\ nth_error L j = Some lj /\ i <> j /\ onPath (lpoly li) q /\ onPath (lpoly lj) q.

(** the offset loops are closed and in general position: their pairwise intersections are found exactly, and the points where they meet are away
    from the vertices and from each other *)
Record loopsPosition (L : list offsetLoop) : Prop := {
  lp_loops : forall l, In l L -> closedPline (lpoly l) /\ smallBulges (lpoly l) /\ indexable (lpoly l);
  lp_exact : forall i j li lj a1 a2 b1 b2, (i < j)%nat -> nth_error L i = Some li -> nth_error L j = Some lj ->
    In (a1, a2) (pathSegs (lpoly li)) -> In (b1, b2) (pathSegs (lpoly lj)) -> exactPair a1 a2 b1 b2;
  lp_spaced : forall i li, nth_error L i = Some li -> spaced (lpoly li) (meeting L i);
  lp_apart : forall i j q q', meeting L i q -> meeting L j q' -> q <> q' -> wellApart q q' }.

(** the points on the left side of the input loop, at least D away from it *)
Definition permitted (P : offsetLoop) (D : R) (z : vec) : Prop := clearBy (lpoly P) D z /\ onSide (lpoly P) D z.
(** the winding number such a region has far away from everything: the left side of a clockwise loop is unbounded *)
Definition background (P : offsetLoop) : Z := if Rlt_dec (getArea (lpoly P)) 0 then 1%Z else 0%Z.

(** the offset loops of each single input loop are right: all their points are at distance D from it on its left side, and together they wind once around
    the points permitted by it and not at all around the others (relative to the background) *)
Definition offsetsExact (input : loopSet) (D : R) (L : list offsetLoop) : Prop :=
  (forall l z, In l L -> onPath (lpoly l) z -> exists P, inputLoop input (parentLoopIndex l) P /\ atDistance (lpoly P) D z /\ onSide (lpoly P) D z) /\
  (forall k P z, inputLoop input k P -> (forall l, In l L -> parentLoopIndex l = k -> ~ onPath (lpoly l) z) ->
     let w := (background P + windingSum (map lpoly (filter (fun l => Nat.eqb (parentLoopIndex l) k) L)) z)%Z in
     (permitted P D z -> w = 1%Z) /\ (~ permitted P D z -> w = 0%Z)).

(** every input loop lies on the left side of every other one *)
Definition arranged (input : loopSet) (D : R) : Prop :=
  forall i k Pi Pk y, inputLoop input i Pi -> inputLoop input k Pk -> i <> k -> onPath (lpoly Pi) y -> onSide (lpoly Pk) D y.

(** the points by which a loop or a stretch of it is judged: its first vertex, the middle of the last segment of the stretch *)
Definition judged (L : list offsetLoop) (i : nat) (li : offsetLoop) (p : vec) : Prop :=
  p = pos (at_ (lpoly li) 0) \/ exists l, part (lpoly li) (meeting L i) l /\ p = lastMid l.
(** each such point is clear of each other input loop (and not within 1e-8 of a side of the sector of one of its arcs), or closer to it than the tolerance of the test *)
Definition decisiveIslands (input : loopSet) (D : R) (L : list offsetLoop) : Prop :=
  forall i li p k P, nth_error L i = Some li -> judged L i li p -> inputLoop input k P -> k <> parentLoopIndex li ->
    (clearBy (lpoly P) D p /\ forall v1 v2, In (v1, v2) (pathSegs (lpoly P)) -> ~ nearSectorSide v1 v2 p) \/ exists q, onPath (lpoly P) q /\ dist p q <= D - 2 / 10000.

(** the joint offset curve: permitted by all input loops, and at distance exactly D from one *)
Definition permittedByAll (input : loopSet) (D : R) (q : vec) : Prop := forall k P, inputLoop input k P -> permitted P D q.
Definition jointOffset (input : loopSet) (D : R) (q : vec) : Prop := permittedByAll input D q /\ exists k P, inputLoop input k P /\ atDistance (lpoly P) D q.

(** ** Distances to a path *)
Lemma unclear_margin pl r z : ~ clearBy pl r z -> exists e, 0 < e /\ forall z', dist z z' < e -> ~ clearBy pl r z'.
Proof.
  intros N. apply Classical_Pred_Type.not_all_ex_not in N. destruct N as (p & N). apply Classical_Prop.imply_to_and in N. destruct N as [Op N]. apply Rnot_le_lt in N.
  exists (r - dist z p). split; [lra|]. intros z' Hz' Cz. specialize (Cz p Op). pose proof (dist_tri z' z p) as T. rewrite (dist_sym' z' z) in T. lra.
Qed.

Lemma clear_closed pl r z : (forall e, 0 < e -> exists z', dist z z' < e /\ clearBy pl r z') -> clearBy pl r z.
Proof.
  intros H. apply Classical_Prop.NNPP. intros N. destruct (unclear_margin pl r z N) as (e & He & G). destruct (H e He) as (z' & Hz & HK). exact (G z' Hz HK).
Qed.

(** a point that is clear of the path by r and at distance r from y is on the same side of it as y *)
Lemma same_side pl r z y : smallBulges pl -> 0 < r -> clearBy pl r z -> dist z y = r -> ~ onPath pl y -> ~ onPath pl z /\ getWindingNumber pl z = getWindingNumber pl y.
Proof.
  intros SB Hr Cz Ey Ny. assert (Nz : ~ onPath pl z). { intros O. specialize (Cz z O). rewrite dist_self in Cz. lra. } split; [exact Nz|].
  apply C47_constant_along_paths; [exact SB|]. exists (fun u => lerp z y u). split; [split; [|split]|].
  - unfold lerp. apply vec_eq; rcbn; ring.
  - unfold lerp. apply vec_eq; rcbn; ring.
  - intros u _. unfold lerp. cbn [vx vy]. split; [apply (ex_derive_continuous (V := R_NormedModule) (fun u0 => vx z + u0 * (vx y - vx z)))|apply (ex_derive_continuous (V := R_NormedModule) (fun u0 => vy z + u0 * (vy y - vy z)))]; auto_derive; auto.
  - intros u Hu O. destruct (Req_dec u 1) as [->|N1].
    + apply Ny. replace y with (lerp z y 1); [exact O|]. unfold lerp. apply vec_eq; rcbn; ring.
    + specialize (Cz _ O). destruct (PropsJordan.dist_lerp z y u Hu) as [E _]. rewrite E, Ey in Cz. nra.
Qed.

Lemma same_onSide pl r z y : smallBulges pl -> 0 < r -> clearBy pl r z -> dist z y = r -> onSide pl r y -> onSide pl r z.
Proof.
  intros SB Hr Cz Ey Sy. assert (Ny : ~ onPath pl y) by (unfold onSide, insideOf, outsideOf in Sy; destruct (Rlt_dec _ _); tauto).
  destruct (same_side pl r z y SB Hr Cz Ey Ny) as [Nz W]. unfold onSide, insideOf, outsideOf in *. destruct (Rlt_dec _ _); rewrite W; tauto.
Qed.

(** ** Cutting a closed polyline at marked points *)
Lemma spaced_sub pl (X Y : vec -> Prop) : (forall q, Y q -> X q) -> spaced pl X -> spaced pl Y.
Proof.
  intros H (A & B & C). split; [exact A|]. split; [intros v q Hv Hq; apply (B v q Hv); auto|]. intros v1 v2 q Hin Hq O. destruct (C v1 v2 q Hin (H q Hq) O) as (C1 & C2 & C3). split; [auto|]. split; [auto|]. intros q' Hq'. apply C3; auto.
Qed.

Lemma closed_net pl x : closedPline pl -> netT (trace pl) x = 0.
Proof.
  intros [Hc H2]. destruct pl as [cl vs]. cbn [isClosed vertexes] in *. subst cl. destruct vs as [|v [|w vs]]; [cbn in H2; lia|cbn in H2; lia|]. unfold trace. rewrite pathSegs_closed.
  change (map seg3 (segsOf ((v :: w :: vs) ++ [v]))) with (traceOf ((v :: w :: vs) ++ [v])). rewrite netT_trace by discriminate. rewrite last_last. cbn [app hd]. lra.
Qed.

Lemma closed_turn pl q : closedPline pl -> smallBulges pl -> ~ onPath pl q -> turnT q (trace pl) = 2 * PI * IZR (getWindingNumber pl q).
Proof. intros Hc Hs O. unfold trace. rewrite turnT_path. apply turnSum_winding; auto. apply Hc. Qed.

Lemma small_trace pl : closedPline pl -> smallBulges pl -> okT (trace pl).
Proof.
  intros [Hc H2] Hs e He. unfold trace in He. apply in_map_iff in He. destruct He as ([v1 v2] & <- & Hin). destruct (at_seg pl v1 v2 Hc Hin) as (k & Hk & -> & ->). unfold ok3, seg3. cbn [fst snd]. apply (vert_small pl H2 Hs).
Qed.

Section Split.
Context {SL : StdLib} {SLaws : StdLaws SL}.
Context (pl : polyline) (X : vec -> Prop) (cs : list (nat * slicePoint)) (pred : vec -> bool).
Hypothesis (Cpl : closedPline pl) (Spl : smallBulges pl) (Hsp : spaced pl X) (Hap : forall q q', X q -> X q' -> q <> q' -> wellApart q q').
Hypothesis Hsound : forall k c, In (k, c) cs -> (k < length (vertexes pl))%nat /\ spStart c = false /\ onSeg (vert pl k 0) (vert pl k 1) (spPos c) /\ X (spPos c).
Hypothesis Hcompl : forall k q, (k < length (vertexes pl))%nat -> onSeg (vert pl k 0) (vert pl k 1) q -> X q -> In (k, mkSP q false) cs.

Definition keptP : list (list vertex) := flat_map (fun k => filter (PropsSlices.accepted pred) (stretches pl cs k)) (seq 0 (length (vertexes pl))).
Definition dropP : list (list vertex) := flat_map (fun k => filter (fun l => negb (PropsSlices.accepted pred l)) (stretches pl cs k)) (seq 0 (length (vertexes pl))).

Let HS := side_sep pl X cs Cpl Hsp Hsound.
Let HC := side_cut pl X cs Cpl Hsp Hsound.
Let HPr := side_pair pl X cs Cpl Hsp Hap Hsound.

Lemma split_part l : In l keptP \/ In l dropP -> part pl X l.
Proof.
  intros H. assert (G : exists k, (k < length (vertexes pl))%nat /\ In l (stretches pl cs k)).
  { unfold keptP, dropP in H. rewrite !in_flat_map in H. destruct H as [(k & Hk & H)|(k & Hk & H)]; apply filter_In in H; apply in_seq in Hk; exists k; (split; [lia|tauto]). }
  destruct G as (k & Hk & Hl). destruct (stretch_runX pl X cs (proj2 Cpl) Spl HS HC HPr Hcompl k l Hk Hl) as (a & d & b & R & Hd & I1 & I2 & C).
  exists k, a, d, b. split; [auto|]. split; [exact Hd|]. split; [auto|]. split; [auto|]. split; [apply (Hsound _ _ I1)|apply (Hsound _ _ I2)].
Qed.

Lemma split_all q : (exists k c, In (k, c) cs) -> onPath pl q -> exists l, (In l keptP \/ In l dropP) /\ onPath (mkPline false l) q.
Proof.
  intros Hne O. destruct (stretches_cover pl cs (proj2 Cpl) (proj1 Cpl) Spl HS HC HPr q Hne O) as (k & l & Hk & Hl & Ol). exists l. split; [|auto]. unfold keptP, dropP. rewrite !in_flat_map.
  destruct (PropsSlices.accepted pred l) eqn:E; [left|right]; exists k; (split; [apply in_seq; lia|apply filter_In; rewrite ?E; auto]).
Qed.

Lemma part_len l : part pl X l -> (2 <= length l)%nat.
Proof. intros (k & a & d & b & _ & _ & R & _). apply (run_ends _ _ _ _ _ _ R). Qed.

Lemma accepted_mid l : (2 <= length l)%nat -> PropsSlices.accepted pred l = pred (lastMid l).
Proof. intros H2. unfold PropsSlices.accepted, lastMid. rewrite <- (rev_length l) in H2. destruct (rev l) as [|y [|x t]]; [cbn in H2; lia|cbn in H2; lia|reflexivity]. Qed.

Lemma kept_pred l : In l keptP -> pred (lastMid l) = true.
Proof. intros H. pose proof (part_len l (split_part l (or_introl H))) as H2. unfold keptP in H. apply in_flat_map in H. destruct H as (k & _ & H). apply filter_In in H. rewrite <- (accepted_mid l H2). tauto. Qed.
Lemma drop_pred l : In l dropP -> pred (lastMid l) = false.
Proof. intros H. pose proof (part_len l (split_part l (or_intror H))) as H2. unfold dropP in H. apply in_flat_map in H. destruct H as (k & _ & H). apply filter_In in H. rewrite <- (accepted_mid l H2). destruct H as [_ H]. now apply negb_true_iff in H. Qed.

Lemma part_shape l : part pl X l -> (length l = 2%nat -> pos (hd vdflt l) <> pos (last l vdflt)) /\ okT (traceOf l).
Proof.
  intros (k & a & d & b & Hk & _ & (Ha & Hb & R) & _). destruct d as [|d'].
  - destruct R as (u & w & -> & Hab & P & Bu). split.
    + intros _. cbn [hd last]. rewrite (piece_start _ _ _ _ _ _ P), (piece_end _ _ _ _ _ _ P). intros E. apply segPath_inj in E; [lra|apply (vert_small pl (proj2 Cpl) Spl)|apply far_ne, (vert_far pl cs (proj2 Cpl) HS)|auto|auto].
    + intros e He. cbn in He. destruct He as [<-|[]]. exact Bu.
  - destruct R as (w & us & e & -> & Ha1 & Hb0 & Pw & Bw & P & Bu & Eu). split; [rewrite !app_length; cbn [length]; rewrite map_length, seq_length; lia|].
    assert (G : forall vs v, Rabs (bulge v) <= 1 -> (forall x, In x vs -> Rabs (bulge x) <= 1) -> okT (map seg3 (openSegs v (vs ++ [us; e])))).
    { induction vs as [|x vs IH]; intros v Hv Hvs.
      - intros y Hy. cbn in Hy. destruct Hy as [<-|[<-|[]]]; [exact Hv|exact Bu].
      - cbn [app openSegs map]. intros y [<-|Hy]; [exact Hv|]. apply (IH x); auto; [apply Hvs; now left|intros z Hz; apply Hvs; now right]. }
    unfold traceOf. cbn [app segsOf]. apply G; [exact Bw|]. intros x Hx. apply in_map_iff in Hx. destruct Hx as (i & <- & _). apply (vert_small pl (proj2 Cpl) Spl).
Qed.

Hypothesis Hne : exists k c, In (k, c) cs.

Lemma split_cover (mu : vec * R * vec -> R) (M : nat -> R -> R -> R) :
  (forall k a b c, (k < length (vertexes pl))%nat -> 0 <= a -> a <= b -> b <= c -> c <= 1 -> M k a c = M k a b + M k b c) ->
  (forall k a b u w, (k < length (vertexes pl))%nat -> 0 <= a -> a < b -> b <= 1 -> piece (vert pl k 0) (vert pl k 1) a b u w -> Rabs (bulge u) <= 1 -> mu (seg3 (u, w)) = M k a b) ->
  sumR (map mu (flat_map traceOf keptP)) + sumR (map mu (flat_map traceOf dropP)) = sumR (map (fun k => M k 0 1) (seq 0 (length (vertexes pl)))).
Proof.
  intros Ma Mp. rewrite <- (cover pl cs (proj2 Cpl) Spl HS HC HPr mu M Ma Mp Hne). rewrite (sum_flat_map mu traceOf keptP), (sum_flat_map mu traceOf dropP). unfold keptP, dropP. rewrite !filter_flat_map. apply (sum_filter (muL mu)).
Qed.

Lemma split_turn p : ~ onPath pl p -> turnT p (flat_map traceOf keptP) + turnT p (flat_map traceOf dropP) = 2 * PI * IZR (getWindingNumber pl p).
Proof.
  intros Ho. assert (Hoff : forall k, (k < length (vertexes pl))%nat -> ~ onSeg (vert pl k 0) (vert pl k 1) p).
  { intros k Hk O. apply Ho. destruct (seg_at pl k (proj1 Cpl) (proj2 Cpl) Hk) as (_ & _ & Hin). exists (vert pl k 0), (vert pl k 1). auto. }
  rewrite <- (turnSum_winding pl p (proj1 Cpl) Spl Ho). unfold turnT.
  rewrite (split_cover (turn1 p) (fun k a b => RInt (angSpeed p (segPath (vert pl k 0) (vert pl k 1))) a b)).
  - unfold turnSum. fold (sumR (map (fun e => RInt (angSpeed p (segPath (fst e) (snd e))) 0 1) (pathSegs pl))). rewrite <- (sumR_perm _ _ (Permutation_map _ (segs_perm pl Cpl))), map_map. reflexivity.
  - intros k a b c Hk Ha Hab Hbc Hc. pose proof (vert_small pl (proj2 Cpl) Spl k 0) as Bk. symmetry. apply (RInt_Chasles (V := R_CompleteNormedModule)); apply seg_int_part; auto; lra.
  - intros k a b u w Hk Ha Hab Hb P Bu. rewrite turn1_seg3. apply piece_turn; auto. apply (vert_small pl (proj2 Cpl) Spl).
Qed.

Lemma split_net x : netT (flat_map traceOf keptP ++ flat_map traceOf dropP) x = 0.
Proof.
  rewrite netT_app. unfold netT. rewrite (split_cover (fun e => ind x (fst (fst e)) - ind x (snd e)) (fun k a b => ind x (seg pl k a) - ind x (seg pl k b))).
  - set (n := length (vertexes pl)). rewrite (sum_ext _ (fun k => ind x (pos (vert pl k 0)) + - ind x (pos (vert pl (S k) 0)))).
    2:{ intros k _. unfold seg. rewrite segPath_0, segPath_1. replace (vert pl k 1) with (vert pl (S k) 0); [lra|]. unfold vert. do 2 f_equal. lia. }
    rewrite sum_add. assert (E : sumR (map (fun k => - ind x (pos (vert pl (S k) 0))) (seq 0 n)) = - sumR (map (fun k => ind x (pos (vert pl k 0))) (seq 1 n))).
    { rewrite <- sumR_map_opp, map_map, <- seq_shift, map_map. reflexivity. }
    rewrite E, (sum_period n ltac:(unfold n; destruct Cpl; lia) (fun k => ind x (pos (vert pl k 0))) 1); [lra|]. intros i. do 2 f_equal. unfold vert. fold n. f_equal. replace (i + n + 0)%nat with (i + 0 + 1 * n)%nat by lia. apply Nat.mod_add. destruct Cpl. unfold n. lia.
  - intros k a b c _ _ _ _ _. lra.
  - intros k a b u w _ _ _ _ P _. unfold seg3, seg. cbn [fst snd]. now rewrite (piece_start _ _ _ _ _ _ P), (piece_end _ _ _ _ _ _ P).
Qed.
End Split.
