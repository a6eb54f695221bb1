(** * C67: the results of offsetting a simple closed straight polyline are closed and bound exactly the region that is clear of the input on the requested side *)
From Coq Require Import ZArith Reals Lra Lia List Bool Arith Permutation Classical.
From Coquelicot Require Import Coquelicot.
From Verif Require Import Base Num MathUtils PlineSegment SpatialIndex Polyline Intersects Combine Offset StdLaws RGeom Spec PropsMath ArcGeom Polar PropsSegment PropsClosest PropsIntr PropsPlineIntr PropsPolyline PropsArea Turning PropsWinding PropsRegion PropsPlineIndex PropsExtents PropsCoincident PropsSlices PropsStitch PropsCombine PropsPieces PropsTrace PropsBoolOps PropsOffset PropsOffsetSlices PropsOffsetSegs PropsRawOffset PropsJoins PropsRawStructure PropsRawGeom PropsRawPoints PropsParallelTotal PropsOffsetRuns PropsOffsetCuts PropsCover PropsRunPoints PropsEuler PropsBalance PropsTurnBalance PropsRegionOps PropsRegionArea PropsJordan PropsWindArea PropsOffsetParts PropsOffsetResult PropsOffsetConst PropsOffsetExact PropsOffsetHits PropsOffsetExample PropsOffsetSide PropsOffsetGerm PropsIslandExact.
Import ListNotations.
Open Scope R_scope.

(** ** Specification *)
(** the region the offset has to leave: the points on the side to which it moves, at least |d| away from the input *)
Definition leftOver (pl : polyline) (d : R) (q : vec) : Prop := clearBy pl (Rabs d) q /\ onSide pl d q.
(** the sense in which the results run around it: as the input does if the offset is to its left (d > 0); around the outside of it otherwise *)
Definition sense (d : R) : Z := if Rlt_dec 0 d then 1%Z else (-1)%Z.
(** the region is unbounded exactly when the offset moves to the outside *)
Definition unboundedSide (pl : polyline) (d : R) : Z := if Rlt_dec 0 (d * getArea pl) then 0%Z else 1%Z.

Section Core.
Variables (pl : polyline) (d : R) (raw dual : polyline).
Hypothesis (HC : clearRaw pl d) (HC' : clearRaw pl (- d)) (SP : simplePath pl) (Hd : d <> 0).
Hypothesis (Er : createRawOffsetPline pl d = Ok raw) (Ed : createRawOffsetPline pl (- d) = Ok dual).
Hypothesis (SBr : smallBulges raw) (Hne : forall k, pos (vert raw k 0) <> pos (vert raw k 1)).
Variables (A Nn : list (vec * R * vec)) (Xs : list vec).
Hypothesis (OkA : okT A) (OkN : okT Nn).
Notation K := (keepsD pl d).
Hypothesis HA : forall e q, In e A -> on3 e q -> onPath raw q /\ K q.
Hypothesis HN : forall e q, In e Nn -> on3 e q -> onPath raw q /\ (~ In q Xs -> ~ K q).
Hypothesis HNet : forall x, netT A x + netT Nn x = 0.
Hypothesis HTurn : forall q, ~ onPath raw q -> turnT q A + turnT q Nn = 2 * PI * IZR (getWindingNumber raw q).
Hypothesis HX : forall q, doublePoint raw q -> In q Xs.
Hypothesis HV : forall v, In v (vertexes raw) -> In (pos v) Xs.

Definition indR (q : vec) : Z := if pdec (leftOver pl d q) then 1%Z else 0%Z.

Lemma side_local q : ~ onPath pl q -> exists e, 0 < e /\ forall q', dist q q' < e -> (onSide pl d q' <-> onSide pl d q).
Proof.
  intros Nq. destruct (C47_locally_constant pl q (in_small pl d HC) Nq) as (e & He & H). exists e. split; [auto|]. intros q' Hq. destruct (H q' Hq) as [N' E].
  unfold onSide, insideOf, outsideOf. rewrite E. destruct (Rlt_dec 0 (d * getArea pl)); tauto.
Qed.

Lemma K_clear q : K q <-> clearBy pl (Rabs d) q.
Proof. symmetry. apply (clearBy_K pl d HC). Qed.

Lemma ind_local q : ~ (onPath raw q /\ K q) -> exists e, 0 < e /\ forall q', dist q q' < e -> indR q' = indR q.
Proof.
  intros NB. destruct (classic (K q)) as [Kq|NK].
  - assert (NR : ~ onPath raw q) by tauto. assert (Cq := proj1 (K_clear q) Kq). pose proof (clear_off pl d Hd q Cq) as Nq. destruct (side_local q Nq) as (e1 & He1 & S1).
    destruct (classic (onSide pl d q)) as [Sq|NS].
    + destruct (near_active pl d HC q (fun _ => False) Kq) as (e2 & He2 & M).
      { intros j Hj (l & Hl & E). assert (At : atDistance pl (Rabs d) q).
        { split; [exact Cq|]. exists (base pl j l). split; [now apply (base_on pl d HC)|]. rewrite dist_sqd, E. replace (d * d) with (Rsqr d) by reflexivity. apply sqrt_Rsqr_abs. }
        destruct (C58_curve_on_raw pl d raw dual q HC HC' Hd Er Ed At) as [O|O]; [contradiction|]. apply (sides_differ pl d q (in_closed pl d HC) (in_small pl d HC) SP Hd Sq).
        apply (raw_onSide pl (- d) dual); auto; [lra|now rewrite Rabs_Ropp]. }
      exists (Rmin e1 e2). split; [now apply Rmin_glb_lt|]. intros q' Hq. assert (D1 : dist q q' < e1) by (eapply Rlt_le_trans; [exact Hq|apply Rmin_l]). assert (D2 : dist q q' < e2) by (eapply Rlt_le_trans; [exact Hq|apply Rmin_r]).
      unfold indR, leftOver. pose proof (proj1 (K_clear q') (M q' D2 ltac:(tauto))). pose proof (proj2 (S1 q' D1) Sq). destruct (pdec _) as [|N1]; [|tauto]. destruct (pdec _) as [|N2]; [auto|tauto].
    + exists e1. split; [auto|]. intros q' Hq. unfold indR, leftOver. destruct (pdec _) as [[_ Y]|]; [apply (S1 q' Hq) in Y; contradiction|]. destruct (pdec _) as [[_ Y]|]; [contradiction|auto].
  - destruct (nonkeep_open pl d HC q NK) as (e & He & H). exists e. split; [auto|]. intros q' Hq. unfold indR, leftOver. specialize (H q' Hq).
    destruct (pdec _) as [[Y _]|]; [apply K_clear in Y; contradiction|]. destruct (pdec _) as [[Y _]|]; [apply K_clear in Y; contradiction|auto].
Qed.

(** a point of the raw offset other than the cut points and the vertices is passed only once *)
Lemma lone q : onPath raw q -> ~ In q Xs -> exists k tau, (k < length (vertexes raw))%nat /\ 0 < tau < 1 /\ q = seg raw k tau /\
  forall k' s, (k' < length (vertexes raw))%nat -> 0 <= s <= 1 -> seg raw k' s = seg raw k tau -> k' = k.
Proof.
  intros O NX. pose proof (raw_cl pl d raw HC Er) as CL. apply (onPath_sg raw CL) in O. destruct O as (k & tau & Hk & Ht & ->).
  assert (NV : forall i j, seg raw k tau <> pos (vert raw i j)) by (intros i j E; apply NX; rewrite E; apply HV, vert_in; apply CL).
  assert (T0 : tau <> 0) by (intros ->; apply (NV k 0%nat); apply segPath_0). assert (T1 : tau <> 1) by (intros ->; apply (NV k 1%nat); apply segPath_1).
  exists k, tau. split; [auto|]. split; [lra|]. split; [auto|]. intros k' s Hk' Hs E. apply NNPP. intros Nk. apply NX, HX. exists k', k. split; [auto|]. split; [auto|]. split; [auto|].
  split; [apply onSeg_path; exists s; split; [auto|now symmetry]|]. split; [apply onSeg_path; exists tau; split; [lra|reflexivity]|]. intros [[_ Q]|[_ Q]]; exact (NV _ _ Q).
Qed.

Definition endsOf : list vec := map (fun e => fst (fst e)) (A ++ Nn) ++ map (fun e => snd e) (A ++ Nn).
Definition D0 (q : vec) : R := turnT q A - 2 * PI * IZR (sense d * indR q).

Lemma ends_in e : In e (A ++ Nn) -> In (fst (fst e)) endsOf /\ In (snd e) endsOf.
Proof. intros H. unfold endsOf. split; apply in_or_app; [left; exact (in_map (fun e => fst (fst e)) _ _ H)|right; exact (in_map (fun e => snd e) _ _ H)]. Qed.

Lemma data q : ~ In q Xs -> exists A' z de, datum A endsOf (fun q' => ~ onPath raw q') D0 q A' z de.
Proof.
  intros NX. destruct (classic (onPath raw q /\ K q)) as [[O Kq]|NB].
  - destruct (lone q O NX) as (k & tau & Hk & Ht & Eq & Lo).
    assert (ND : ~ onPath dual q) by (intros Q; apply (C59_sides_apart pl d raw dual HC HC' SP Hd Er Ed q); [now apply K_clear|split; auto]).
    subst q. destruct (raw_jump pl d raw dual HC HC' Hd Er Ed SBr k tau Hk Ht (Hne k) Lo Kq ND) as (u & de & Hde & J).
    assert (Cq := proj1 (K_clear _) Kq). destruct (side_local _ (clear_off pl d Hd _ Cq)) as (e1 & He1 & S1). pose proof (raw_onSide pl d raw HC Hd SP Er _ O Cq) as Sq.
    exists (map rev3 Nn), ((if Rltb 0 d then 1 else 0) - u)%Z, (Rmin de e1). split; [now apply okT_map|]. split; [intros x; rewrite netT_rev; pose proof (HNet x); lra|].
    split; [|split; [|split; [now apply Rmin_glb_lt|]]].
    + intros e He. apply in_map_iff in He. destruct He as ([[p b] p'] & <- & He). assert (He' : In (p, b, p') (A ++ Nn)) by (apply in_or_app; now right). apply ends_in in He'. cbn [rev3 fst snd] in *. tauto.
    + apply offT_map. intros e He On. destruct (HN e _ He On) as [_ Q]. exact (Q NX Kq).
    + intros q' Hq Off. assert (D1 : dist (seg raw k tau) q' < de) by (eapply Rlt_le_trans; [exact Hq|apply Rmin_l]). assert (D2 : dist (seg raw k tau) q' < e1) by (eapply Rlt_le_trans; [exact Hq|apply Rmin_r]).
      destruct (J q' D1 Off) as [J1 J2]. pose proof (proj2 (S1 q' D2) Sq) as Sq'. pose proof (HTurn q' Off) as HT. rewrite turnT_rev; [|auto|intros e He On; apply Off, (HN e q' He On)].
      unfold D0, indR, leftOver, sense. destruct (pdec (clearBy pl (Rabs d) q' /\ onSide pl d q')) as [[Y _]|NY].
      * apply K_clear in Y. specialize (J1 Y). rewrite J1 in HT. destruct (Rlt_dec 0 d) as [L|L]; [rewrite (proj2 (Rltb_spec 0 d)) in * by lra|rewrite (proj2 (Rltb_false 0 d)) in * by lra]; rewrite ?minus_IZR in *; rewrite ?mult_IZR; lra.
      * assert (NK : ~ K q') by (intros Y; apply NY; split; [now apply K_clear|auto]). specialize (J2 NK). rewrite J2 in HT. destruct (Rlt_dec 0 d) as [L|L]; [rewrite (proj2 (Rltb_spec 0 d)) in * by lra|rewrite (proj2 (Rltb_false 0 d)) in * by lra]; rewrite ?minus_IZR in *; rewrite ?mult_IZR; lra.
  - destruct (ind_local q NB) as (e & He & H). exists A, (sense d * indR q)%Z, e. split; [auto|]. split; [auto|]. split; [intros x Hx; apply ends_in, in_or_app; now left|]. split; [intros x Hx On; apply NB, (HA x q Hx On)|]. split; [auto|].
    intros q' Hq _. unfold D0. now rewrite (H q' Hq).
Qed.

Lemma dense q e : ~ In q Xs -> 0 < e -> exists q', dist q q' < e /\ ~ onPath raw q'.
Proof.
  intros NX He. destruct (classic (onPath raw q)) as [O|N]; [|exists q; split; [rewrite dist_zero; auto|auto]]. destruct (lone q O NX) as (k & tau & Hk & Ht & -> & Lo).
  apply (lone_dense raw (raw_cl pl d raw HC Er) SBr k tau); auto.
Qed.

Theorem balanced x : netT A x = 0.
Proof. exact (no_loose_ends A endsOf Xs _ D0 data dense x). Qed.

Lemma far_region : exists B, forall q, B < dist (mkV 0 0) q -> ~ onPath raw q /\ indR q = unboundedSide pl d.
Proof.
  destruct (C47_far_zero raw SBr) as (B1 & H1 & F1). destruct (C47_far_zero pl (in_small pl d HC)) as (B2 & H2 & F2). pose proof (Rabs_pos d) as Hp.
  exists (B1 + B2 + Rabs d). intros q Hq. split; [apply F1; lra|]. destruct (F2 q ltac:(lra)) as [O W].
  assert (C : clearBy pl (Rabs d) q).
  { intros p Op. assert (dist (mkV 0 0) p <= B2) by (apply Rnot_lt_le; intros L; now apply (proj1 (F2 p L))). pose proof (dist_tri (mkV 0 0) p q). rewrite (dist_sym' p q) in *. lra. }
  unfold indR, leftOver, unboundedSide, onSide, insideOf, outsideOf. rewrite W. destruct (Rlt_dec 0 (d * getArea pl)), (pdec _); auto; tauto.
Qed.

Theorem turning q : ~ In q Xs -> ~ onPath raw q -> turnT q A = 2 * PI * IZR (sense d * (indR q - unboundedSide pl d)).
Proof.
  intros NX Off. destruct far_region as (B & HB).
  pose proof (same_everywhere A endsOf Xs (fun q' => ~ onPath raw q') D0 data dense (sense d * unboundedSide pl d)%Z q OkA) as S. unfold D0 in S at 2.
  assert (E : D0 q = - (2 * PI * IZR (sense d * unboundedSide pl d))).
  { apply S; auto. exists B. intros q' Hq'. destruct (HB q' Hq') as [O I]. split; [auto|]. unfold D0. now rewrite I. }
  unfold D0 in E. rewrite !mult_IZR in *. rewrite minus_IZR. lra.
Qed.

(** away from finitely many points *)
Lemma off_all q e : 0 < e -> exists q', dist q q' < e /\ ~ In q' Xs /\ ~ onPath raw q'.
Proof.
  intros He. destruct (clearance q Xs) as (r & Hr & Hf). set (m := Rmin e r / 2). assert (Hm : 0 < m /\ m < e /\ m < r) by (unfold m; pose proof (Rmin_l e r); pose proof (Rmin_r e r); assert (0 < Rmin e r) by (now apply Rmin_glb_lt); lra).
  set (q1 := mkV (vx q + m) (vy q)). assert (D1 : dist q q1 = m). { rewrite dist_sqd. rewrite <- (sqrt_square m) by lra. f_equal. unfold sqd, q1. cbn [vx vy]. rring. }
  assert (N1 : ~ In q1 Xs). { intros Hin. assert (Ne : q1 <> q) by (intros E; rewrite E, dist_zero in D1; lra). specialize (Hf q1 Hin Ne). lra. }
  destruct (clearance q1 Xs) as (r1 & Hr1 & Hf1). destruct (dense q1 (Rmin (e - m) r1) N1) as (q' & Hq & O); [apply Rmin_glb_lt; lra|].
  pose proof (Rmin_l (e - m) r1). pose proof (Rmin_r (e - m) r1). exists q'. split; [pose proof (dist_tri q q1 q'); lra|]. split; [|auto].
  intros Hin. destruct (veq_dec q' q1) as [->|Ne]; [contradiction|]. specialize (Hf1 q' Hin Ne). lra.
Qed.

Lemma finish rs : Permutation (flat_map trace rs) A -> ((forall x, netT A x = 0) -> List.Forall closedPline rs) ->
  List.Forall (fun r => closedPline r /\ smallBulges r) rs /\ forall q, (forall r, In r rs -> ~ onPath r q) ->
    ((forall p, onPath pl p -> Rabs d < dist q p) -> onSide pl d q -> (unboundedSide pl d + sense d * windingSum rs q)%Z = 1%Z) /\ (~ leftOver pl d q -> (unboundedSide pl d + sense d * windingSum rs q)%Z = 0%Z).
Proof.
  intros T Cl. specialize (Cl balanced).
  assert (Ok : okT (flat_map trace rs)) by (intros e He; apply OkA; exact (Permutation_in _ T He)).
  split; [apply List.Forall_forall; intros r Hr; assert (Cr : closedPline r) by exact (proj1 (List.Forall_forall _ _) Cl r Hr); split; [exact Cr|]; apply trace_small; [exact Cr|]; intros e He; apply Ok, in_flat_map; eauto|].
  assert (Val : forall q, (forall r, In r rs -> ~ onPath r q) -> ~ In q Xs -> ~ onPath raw q -> (unboundedSide pl d + sense d * windingSum rs q)%Z = indR q).
  { intros q Off NX Or. pose proof (windingSum_turn rs q Cl Ok Off) as E. assert (E3 : turnT q (flat_map trace rs) = turnT q A) by exact (sumR_perm _ _ (Permutation_map (turn1 q) T)). rewrite E3 in E.
    rewrite turning in E by auto. pose proof PI_RGT_0. assert (E2 : IZR (sense d * (indR q - unboundedSide pl d)) = IZR (windingSum rs q)) by (apply (Rmult_eq_reg_l (2 * PI)); lra). apply eq_IZR in E2. rewrite <- E2.
    unfold sense. destruct (Rlt_dec 0 d); lia. }
  assert (Loc : forall q, (forall r, In r rs -> ~ onPath r q) -> exists e, 0 < e /\ forall q', dist q q' < e -> (forall r, In r rs -> ~ onPath r q') /\ windingSum rs q' = windingSum rs q).
  { intros q. clear T Val. induction rs as [|r rs IH]; intros Off; [exists 1; split; [lra|]; intros; split; [intros ? []|reflexivity]|].
    inversion Cl. subst. cbn [flat_map] in Ok. assert (Sr : smallBulges r) by (apply trace_small; auto; intros e He; apply Ok, in_or_app; now left).
    destruct (IH H2 (fun e He => Ok e (in_or_app _ _ _ (or_intror He))) (fun r0 H0 => Off r0 (or_intror H0))) as (e1 & He1 & L1).
    destruct (C47_locally_constant r q Sr (Off r (or_introl eq_refl))) as (e2 & He2 & L2). exists (Rmin e1 e2). split; [now apply Rmin_glb_lt|]. intros q' Hq.
    destruct (L1 q') as [O1 W1]; [eapply Rlt_le_trans; [exact Hq|apply Rmin_l]|]. destruct (L2 q') as [O2 W2]; [eapply Rlt_le_trans; [exact Hq|apply Rmin_r]|]. split.
    - intros r0 [<-|H0]; auto.
    - unfold windingSum in *. cbn [map fold_right]. now rewrite W1, W2. }
  assert (Ext : forall q v, (forall r, In r rs -> ~ onPath r q) -> (exists e, 0 < e /\ forall q', dist q q' < e -> indR q' = v) -> (unboundedSide pl d + sense d * windingSum rs q)%Z = v).
  { intros q v Off (e & He & Hv). destruct (Loc q Off) as (e1 & He1 & L). destruct (off_all q (Rmin e e1)) as (q' & Hq & NX & Or); [now apply Rmin_glb_lt|].
    destruct (L q') as [Off' W]; [eapply Rlt_le_trans; [exact Hq|apply Rmin_r]|]. rewrite <- W, <- (Hv q'); [now apply Val|eapply Rlt_le_trans; [exact Hq|apply Rmin_l]]. }
  intros q Off. split.
  - intros St Sq. apply Ext; [auto|]. assert (Cq : clearBy pl (Rabs d) q) by (intros p Hp; specialize (St p Hp); lra). assert (Kq := proj2 (K_clear q) Cq). destruct (side_local q (clear_off pl d Hd q Cq)) as (e1 & He1 & S1).
    destruct (near_active pl d HC q (fun _ => False) Kq) as (e2 & He2 & M).
    { intros j Hj (l & Hl & E). specialize (St (base pl j l) (base_on pl d HC j l Hl)). rewrite dist_sqd, E in St. replace (d * d) with (Rsqr d) in St by reflexivity. rewrite sqrt_Rsqr_abs in St. lra. }
    exists (Rmin e1 e2). split; [now apply Rmin_glb_lt|]. intros q' Hq. assert (D1 : dist q q' < e1) by (eapply Rlt_le_trans; [exact Hq|apply Rmin_l]). assert (D2 : dist q q' < e2) by (eapply Rlt_le_trans; [exact Hq|apply Rmin_r]).
    unfold indR, leftOver. pose proof (proj1 (K_clear q') (M q' D2 ltac:(tauto))). pose proof (proj2 (S1 q' D1) Sq). destruct (pdec _) as [|N1]; [auto|tauto].
  - intros NL. assert (E0 : indR q = 0%Z) by (unfold indR; destruct (pdec _); tauto). rewrite <- E0. apply Ext; [auto|]. apply ind_local. intros [O Kq]. apply NL. apply K_clear in Kq. split; [auto|]. now apply (raw_onSide pl d raw).
Qed.
End Core.

(** what the proof of C57 - C59 provides: kept pieces A, other pieces Nn of the raw offset, finitely many special points Xs *)
Definition coreData (pl : polyline) (d : R) (raw : polyline) (A Nn : list (vec * R * vec)) (Xs : list vec) : Prop :=
  okT A /\ okT Nn /\
  (forall e q, In e A -> on3 e q -> onPath raw q /\ keepsD pl d q) /\
  (forall e q, In e Nn -> on3 e q -> onPath raw q /\ (~ In q Xs -> ~ keepsD pl d q)) /\
  (forall x, netT A x + netT Nn x = 0) /\
  (forall q, ~ onPath raw q -> turnT q A + turnT q Nn = 2 * PI * IZR (getWindingNumber raw q)) /\
  (forall q, doublePoint raw q -> In q Xs) /\
  (forall v, In v (vertexes raw) -> In (pos v) Xs) /\
  (forall q, sumR (map (pass q) A) + sumR (map (pass q) Nn) = sumR (map (pass q) (trace raw))) /\
  forall e, In e (A ++ Nn) -> In (fst (fst e)) Xs /\ fst (fst e) <> snd e.

(** ** C67 *)
Section Result.
Context {SL : StdLib} {SLaws : StdLaws SL}.

Lemma offset_core pl d h raw dual : clearRaw pl d -> clearRaw pl (- d) -> simplePath pl -> indexable pl -> 1 / 10000 <= Rabs d ->
  (48 * Z.of_nat (length (vertexes pl)) * Z.of_nat (length (vertexes pl)) <= 2 ^ 24)%Z ->
  createRawOffsetPline pl d = Ok raw -> createRawOffsetPline pl (- d) = Ok dual -> spread raw -> offsetPosition h raw dual ->
  decisive pl raw d (cutPoint h raw dual) -> noFalseHits pl raw d -> (h = true \/ forall l, part raw (cutPoint h raw dual) l -> ~ tinyLoop l) ->
  exists rs A Nn Xs, parallelOffset pl d h = Ok rs /\ smallBulges raw /\ (forall k, pos (vert raw k 0) <> pos (vert raw k 1)) /\ coreData pl d raw A Nn Xs /\
    Permutation (flat_map trace rs) A /\ ((forall x, netT A x = 0) -> List.Forall closedPline rs).
Proof.
  intros HC HC' SP Hix Hd Hn Er Ed Hspr OP Dec NF Tiny. assert (Hd0 : d <> 0) by (intros ->; rewrite Rabs_R0 in Hd; lra).
  destruct (C59_offset_side pl d h raw dual) as (rs & E & _ & _); auto.
  assert (Hok : okPath pl). { intros v1 v2 Hin. left. exact (segs_line pl d v1 v2 HC Hin). } pose proof (in_small pl d HC) as Hsm.
  destruct (C57_offset_parts pl d h raw dual) as (rs' & E' & O); auto; [apply HC|]. assert (rs' = rs) by congruence. subst rs'. clear E'.
  set (X := cutPoint h raw dual) in *. assert (X1 : forall q, doublePoint raw q -> X q) by (intros q Hq; now left).
  assert (X2 : forall q, keepsD pl d q -> onPath raw q -> onPath dual q -> X q).
  { intros q Kq O1 O2. exfalso. apply (C59_sides_apart pl d raw dual HC HC' SP Hd0 Er Ed q); [now apply (clearBy_K pl d HC)|split; auto]. }
  pose proof (op_arcs _ _ _ OP) as Hrs. pose proof (op_spaced _ _ _ OP) as Hsp. fold X in Hsp. pose proof (raw3 pl d raw HC Er) as H3. assert (H2 : (2 <= length (vertexes raw))%nat) by lia. pose proof (raw_cl pl d raw HC Er) as CL. pose proof CL as [Hrc _].
  assert (Band : forall p, p = pos (at_ raw 0) \/ (exists l, part raw X l /\ p = lastMid l) -> clearOfInput pl d p -> keepsD pl d p).
  { intros p Hp Cp. destruct (Dec p Hp) as [Hcl|(q & Hq & Hpq)]; [now apply (clearBy_K pl d HC)|]. exfalso. specialize (Cp q Hq). lra. }
  assert (NTC : forall p, tooClose pl d p -> ~ keepsD pl d p).
  { intros p (v1 & v2 & Hin & [(q & Oq & Hq)|[NL _]]) HK; [|apply NL; exact (segs_line pl d v1 v2 HC Hin)]. assert (Op : onPath pl q) by (exists v1, v2; auto). pose proof (proj2 (clearBy_K pl d HC p) HK q Op). lra. }
  assert (Hs : sep raw []) by (apply (side_sep raw X [] CL Hsp); intros k0 c []). assert (Hne : forall k, pos (vert raw k 0) <> pos (vert raw k 1)) by (intros k; apply far_ne, (vert_far raw [] H2 Hs)).
  set (vs := map pos (vertexes raw)). assert (HV : forall v, In v (vertexes raw) -> In (pos v) vs) by (intros v Hv; now apply in_map).
  destruct O as [(_ & parts & (Hcut & Hcov & Honce & Hnet & Hpass) & kept & dropped & P & V & D & T & Cl)|(No & R)].
  - set (Xs := vs ++ map (fun l => pos (hd vdflt l)) parts ++ map (fun l => pos (last l vdflt)) parts ++ map (fun e => fst (fst e)) (flat_map traceOf parts)).
    assert (Traces : forall e q ls, (forall l, In l ls -> In l parts) -> In e (flat_map traceOf ls) -> on3 e q -> exists l, In l ls /\ In l parts /\ part raw X l /\ onPath (mkPline false l) q /\ onPath raw q).
    { intros e q ls Sub He Oe. apply in_flat_map in He. destruct He as (l & Hl & Hel). pose proof (Sub l Hl) as Hp. pose proof (Hcut l Hp) as Pl. exists l. split; [auto|]. split; [auto|]. split; [auto|].
      assert (Ol : onPath (mkPline false l) q) by (apply onPath_trace; exists e; split; [now rewrite trace_open|auto]). split; [auto|]. destruct Pl as (k & a & n & b & _ & _ & Rn & _). apply (run_on raw k a n b l q); auto. }
    assert (SubK : forall l, In l kept -> In l parts) by (intros l Hl; apply (Permutation_in _ P), in_or_app; now left). assert (SubD : forall l, In l dropped -> In l parts) by (intros l Hl; apply (Permutation_in _ P), in_or_app; now right).
    assert (XE : forall q l, In l parts -> onPath (mkPline false l) q -> X q -> In q Xs).
    { intros q l Hl Ol Xq. pose proof (Hcut l Hl) as (k & a & n & b & _ & _ & Rn & C & _). destruct (run_ends raw k a n b l Rn) as (E1 & E2 & _). apply (run_onRun raw k a n b l q H2 Rn) in Ol.
      assert (Q : q = seg raw k a \/ q = seg raw (k + n) b).
      { destruct n as [|n']; cbn [onRun clearOf] in *.
        - rewrite Nat.add_0_r. destruct Ol as (t & Ht & ->). destruct (Req_dec t a) as [->|]; [now left|]. destruct (Req_dec t b) as [->|]; [now right|]. exfalso. apply (C t); [lra|exact Xq].
        - destruct C as (C1 & C2 & C3). destruct Ol as [(t & Ht & ->)|[(e & t & He & Ht & ->)|(t & Ht & ->)]].
          + destruct (Req_dec t a) as [->|]; [now left|]. exfalso. apply (C1 t); [lra|exact Xq].
          + exfalso. exact (C2 e t He Ht Xq).
          + destruct (Req_dec t b) as [->|]; [now right|]. exfalso. apply (C3 t); [lra|exact Xq]. }
      unfold Xs. apply in_or_app. right. apply in_or_app. destruct Q as [-> | ->]; [left; rewrite <- E1; exact (in_map (fun l => pos (hd vdflt l)) _ _ Hl)|right; apply in_or_app; left; rewrite <- E2; exact (in_map (fun l => pos (last l vdflt)) _ _ Hl)]. }
    assert (Perm3 : Permutation (flat_map traceOf kept ++ flat_map traceOf dropped) (flat_map traceOf parts)). { rewrite <- flat_map_app. now apply Permutation_flat_map. }
    assert (Ok : okT (flat_map traceOf parts)).
    { intros e He. apply in_flat_map in He. destruct He as (l & Hl & He). unfold traceOf in He. apply in_map_iff in He. destruct He as ([x y] & <- & Hxy).
      destruct (run_piece_of raw X l x y CL Hrs Hsp (op_apart _ _ _ OP) (Hcut l Hl) Hxy) as (_ & _ & _ & _ & _ & _ & _ & _ & Bx & _). exact Bx. }
    exists rs, (flat_map traceOf kept), (flat_map traceOf dropped), Xs. split; [exact E|]. split; [exact Hrs|]. split; [exact Hne|]. split; [|split; [exact T|exact Cl]].
    split; [|split; [|split; [|split; [|split; [|split; [|split; [|split; [|split]]]]]]]].
    + intros e He. apply Ok, (Permutation_in _ Perm3), in_or_app. now left.
    + intros e He. apply Ok, (Permutation_in _ Perm3), in_or_app. now right.
    + intros e q He Oe. destruct (Traces e q kept SubK He Oe) as (l & Hl & Hlp & Pl & Ol & Or). split; [auto|]. apply (part_all pl d raw dual HC HC' Hd0 Er Ed X X1 X2 Hrs Hsp l); auto.
      apply Band; [right; eauto|]. apply (V l Hl). now right.
    + intros e q He Oe. destruct (Traces e q dropped SubD He Oe) as (l & Hl & Hlp & Hp & Ol & Or). split; [auto|]. intros NX Kq.
      assert (NXq : ~ X q) by (intros Xq; apply NX; exact (XE q l Hlp Ol Xq)).
      assert (KM : keepsD pl d (lastMid l)) by (apply (part_keeps pl d raw dual HC HC' Hd0 Er Ed X X1 X2 Hrs Hsp l q); auto).
      assert (KA : forall z, onPath (mkPline false l) z -> keepsD pl d z) by (intros z Oz; apply (part_all pl d raw dual HC HC' Hd0 Er Ed X X1 X2 Hrs Hsp l); auto).
      pose proof Hp as (k & a & n & b & _ & _ & Rn & _).
      destruct (D l Hl) as [(p & Hpt & Hcl)|[(l1 & x & y & l2 & y' & u1 & u2 & El & Ey & Hu & Hi)|(Hh & Hf & Hlen)]].
      * apply (NTC p Hcl). destruct Hpt as [(v & Hv & ->)| ->]; [|exact KM]. apply KA. apply (vertex_on l v); [apply (run_ends raw k a n b l Rn)|auto].
      * apply Hi. assert (Hxy : In (x, y) (segsOf l)) by (rewrite El; apply segsOf_mid).
        destruct (run_piece_of raw X l x y CL Hrs Hsp (op_apart _ _ _ OP) Hp Hxy) as (k' & s & t & Hk' & Hs' & Hst & Ht & Pc & Bx & Fx).
        apply (NF k' s t x y' u1 u2); auto; [intros z; rewrite (segPath_end x y' y) by auto; apply Pc|now rewrite Ey|].
        intros z Hz. apply (clearBy_K pl d HC). apply KA. exists x, y. rewrite pathSegs_open. split; [auto|]. apply onSeg_path. exists ((z - s) / (t - s)). assert (Ez : (z - s) / (t - s) * (t - s) = z - s) by (field; lra). split.
        -- split; [apply Rmult_le_pos; [lra|apply Rlt_le, Rinv_0_lt_compat; lra]|]. apply (Rmult_le_reg_r (t - s)); [lra|]. rewrite Ez. lra.
        -- rewrite (Pc _), Ez. unfold seg. f_equal. lra.
      * destruct Tiny as [->|Tn]; [discriminate|]. apply (Tn l Hp). split; auto.
    + intros x. rewrite <- netT_app, (netT_perm _ _ x Perm3). apply Hnet.
    + intros q Oq. rewrite <- turnT_app. unfold turnT. rewrite (sumR_perm _ _ (Permutation_map (turn1 q) Perm3)). now apply Honce.
    + intros q Dq. assert (Or : onPath raw q). { destruct Dq as (i & j & Hi & _ & _ & O & _). destruct (seg_at raw i Hrc H2 Hi) as (_ & _ & I). exists (vert raw i 0), (vert raw i 1). auto. }
      destruct (Hcov q Or) as (l & Hl & Ol). apply (XE q l Hl Ol). auto.
    + intros v Hv. unfold Xs. apply in_or_app. left. auto.
    + intros q. rewrite <- sumR_app, <- map_app. rewrite (sumR_perm _ _ (Permutation_map (pass q) Perm3)). apply Hpass.
    + intros e He. apply (Permutation_in _ Perm3) in He. split; [unfold Xs; do 3 (apply in_or_app; right); exact (in_map (fun e => fst (fst e)) _ _ He)|].
      apply in_flat_map in He. destruct He as (l & Hl & He). unfold traceOf in He. apply in_map_iff in He. destruct He as ([x y] & <- & Hxy). unfold seg3. cbn [fst snd].
      destruct (run_piece_of raw X l x y CL Hrs Hsp (op_apart _ _ _ OP) (Hcut l Hl) Hxy) as (k' & s & t & Hk' & Hs' & Hst & Ht & Pc & _).
      rewrite (piece_start _ _ _ _ _ _ Pc), (piece_end _ _ _ _ _ _ Pc). intros Q. apply segPath_inj in Q; [lra|apply (vert_small raw H2 Hrs)|apply Hne|lra|lra].
  - assert (Okr : okT (trace raw)). { intros e He. unfold trace in He. apply in_map_iff in He. destruct He as ([x y] & <- & Hxy). exact (seg_start_small raw x y Hrs Hxy). }
    assert (Onr : forall e q, In e (trace raw) -> on3 e q -> onPath raw q) by (intros e q He Oe; apply onPath_trace; eauto).
    assert (Tr : forall q, ~ onPath raw q -> turnT q (trace raw) = 2 * PI * IZR (getWindingNumber raw q)).
    { intros q Oq. pose proof (windingSum_turn [raw] q) as W. cbn [flat_map] in W. rewrite app_nil_r in W. rewrite W; [unfold windingSum; cbn [map fold_right]; now rewrite Z.add_0_r|repeat constructor; auto|auto|intros p [<-|[]]; auto]. }
    assert (DX : forall q, doublePoint raw q -> In q vs).
    { intros q Dq. exfalso. apply (No q). split; [|auto]. destruct Dq as (i & j & Hi & _ & _ & O & _). destruct (seg_at raw i Hrc H2 Hi) as (_ & _ & I). exists (vert raw i 0), (vert raw i 1). auto. }
    assert (Okn : okT []) by (intros e []).
    assert (St : forall e, In e (trace raw) -> In (fst (fst e)) vs /\ fst (fst e) <> snd e).
    { intros e He. unfold trace in He. apply in_map_iff in He. destruct He as ([x y] & <- & Hxy). unfold vs, seg3. cbn [fst snd]. apply (Permutation_in _ (Permutation_sym (segs_perm raw CL))) in Hxy. apply in_map_iff in Hxy. destruct Hxy as (k0 & E0 & _). injection E0 as <- <-. split; [apply in_map, vert_in; exact H2|apply Hne]. }
    destruct R as [[-> V]|[-> V]].
    + exists [mkPline true (vertexes raw)], (trace raw), [], vs. split; [exact E|]. split; [exact Hrs|]. split; [exact Hne|].
      split; [split; [exact Okr|split; [exact Okn|split; [|split; [|split; [|split; [|split; [exact DX|split; [exact HV|split]]]]]]]]|split].
      * intros e q He Oe. assert (Or := Onr e q He Oe). split; [auto|]. apply (uncut_all pl d raw dual HC HC' Hd0 Er Ed X X1 X2 q No Or). apply Band; auto.
      * intros e q [].
      * intros x. rewrite (closed_net raw x CL). unfold netT. cbn. lra.
      * intros q Oq. rewrite (Tr q Oq). unfold turnT. cbn. lra.
      * intros q. cbn. lra.
      * intros e He. rewrite app_nil_r in He. auto.
      * cbn [flat_map]. rewrite app_nil_r. destruct raw as [c l]. cbn [isClosed] in Hrc. subst c. reflexivity.
      * intros _. repeat constructor. exact H2.
    + exists [], [], (trace raw), vs. split; [exact E|]. split; [exact Hrs|]. split; [exact Hne|].
      split; [split; [exact Okn|split; [exact Okr|split; [|split; [|split; [|split; [|split; [exact DX|split; [exact HV|split]]]]]]]]|split].
      * intros e q [].
      * intros e q He Oe. assert (Or := Onr e q He Oe). split; [auto|]. intros _ Kq. apply (NTC _ V). now apply (uncut_all pl d raw dual HC HC' Hd0 Er Ed X X1 X2 q No Or).
      * intros x. rewrite (closed_net raw x CL). unfold netT. cbn. lra.
      * intros q Oq. rewrite (Tr q Oq). unfold turnT. cbn. lra.
      * intros q. cbn. lra.
      * intros e He. auto.
      * constructor.
      * intros _. constructor.
Qed.

(** Offsetting a closed polyline of straight segments that does not touch itself by d, under the conditions of C59, when the intersection test gives no false alarm and no
    tiny loop is dropped: all results are closed; they consist of the points at distance |d| from the input on the side to which the offset moves; and they wind exactly once
    around every point on that side which is farther than |d| from the input (in the sense of the input for an offset to the left, in the opposite sense for an offset to the
    right, counting an outside offset from infinity), and not at all around the points on the other side or closer than |d| to the input. *)
Theorem C67_offset_region pl d h raw dual : clearRaw pl d -> clearRaw pl (- d) -> simplePath pl -> indexable pl -> 1 / 10000 <= Rabs d ->
  (48 * Z.of_nat (length (vertexes pl)) * Z.of_nat (length (vertexes pl)) <= 2 ^ 24)%Z ->
  createRawOffsetPline pl d = Ok raw -> createRawOffsetPline pl (- d) = Ok dual -> spread raw -> offsetPosition h raw dual ->
  decisive pl raw d (cutPoint h raw dual) -> noFalseHits pl raw d -> (h = true \/ forall l, part raw (cutPoint h raw dual) l -> ~ tinyLoop l) ->
  exists rs, parallelOffset pl d h = Ok rs /\ List.Forall (fun r => closedPline r /\ smallBulges r) rs /\
    (forall r q, In r rs -> onPath r q -> atDistance pl (Rabs d) q /\ onSide pl d q) /\
    (forall q, atDistance pl (Rabs d) q -> onSide pl d q -> ~ cutPoint h raw dual q -> exists r, In r rs /\ onPath r q) /\
    forall q, (forall r, In r rs -> ~ onPath r q) ->
      ((forall p, onPath pl p -> Rabs d < dist q p) -> onSide pl d q -> (unboundedSide pl d + sense d * windingSum rs q)%Z = 1%Z) /\
      (~ leftOver pl d q -> (unboundedSide pl d + sense d * windingSum rs q)%Z = 0%Z).
Proof.
  intros HC HC' SP Hix Hd Hn Er Ed Hspr OP Dec NF Tiny. assert (Hd0 : d <> 0) by (intros ->; rewrite Rabs_R0 in Hd; lra).
  destruct (C59_offset_side pl d h raw dual) as (rs & E & On & Cov); auto. exists rs. split; [exact E|]. specialize (Cov NF).
  destruct (offset_core pl d h raw dual) as (rs' & A & Nn & Xs & E' & Hrs & Hne & (C1 & C2 & C3 & C4 & C5 & C6 & C7 & C8 & _ & _) & T & Cl); auto. assert (rs' = rs) by congruence. subst rs'.
  destruct (finish pl d raw dual HC HC' SP Hd0 Er Ed Hrs Hne A Nn Xs C1 C2 C3 C4 C5 C6 C7 C8 rs T Cl) as [F1 F2]. split; [exact F1|]. split; [exact On|]. split; [|exact F2].
  intros q Aq Sq Nq. destruct (Cov q Aq Sq Nq) as [H|(Hh & l & Hl & Tl & _)]; [auto|]. exfalso. destruct Tiny as [->|T']; [discriminate|]. exact (T' l Hl Tl).
Qed.
End Result.

(** If the region has no isolated points - each of its points is a limit of points farther than |d| from the input - then the winding number tells for every point off the results whether it belongs to the region. *)
Definition noIsolated (pl : polyline) (d : R) : Prop := forall q e, leftOver pl d q -> 0 < e -> exists q', dist q q' < e /\ (forall p, onPath pl p -> Rabs d < dist q' p) /\ onSide pl d q'.

Corollary C67_offset_decides {SL : StdLib} {SLaws : StdLaws SL} pl d h raw dual : clearRaw pl d -> clearRaw pl (- d) -> simplePath pl -> indexable pl -> 1 / 10000 <= Rabs d ->
  (48 * Z.of_nat (length (vertexes pl)) * Z.of_nat (length (vertexes pl)) <= 2 ^ 24)%Z ->
  createRawOffsetPline pl d = Ok raw -> createRawOffsetPline pl (- d) = Ok dual -> spread raw -> offsetPosition h raw dual ->
  decisive pl raw d (cutPoint h raw dual) -> noFalseHits pl raw d -> (h = true \/ forall l, part raw (cutPoint h raw dual) l -> ~ tinyLoop l) -> noIsolated pl d ->
  exists rs, parallelOffset pl d h = Ok rs /\ List.Forall (fun r => closedPline r /\ smallBulges r) rs /\
    forall q, (forall r, In r rs -> ~ onPath r q) ->
      (leftOver pl d q -> (unboundedSide pl d + sense d * windingSum rs q)%Z = 1%Z) /\ (~ leftOver pl d q -> (unboundedSide pl d + sense d * windingSum rs q)%Z = 0%Z).
Proof.
  intros HC HC' SP Hix Hd Hn Er Ed Hspr OP Dec NF Tiny NI. destruct (C67_offset_region pl d h raw dual) as (rs & E & Cl & _ & _ & W); auto. exists rs. split; [exact E|]. split; [exact Cl|].
  intros q Off. split; [|apply (W q Off)]. intros L.
  assert (Ex : exists e, 0 < e /\ forall q', dist q q' < e -> (forall r, In r rs -> ~ onPath r q') /\ windingSum rs q' = windingSum rs q).
  { assert (Sb : forall r, In r rs -> smallBulges r) by (intros r Hr; exact (proj2 (proj1 (List.Forall_forall _ _) Cl r Hr))).
    clear - Cl Off Sb. induction rs as [|r rs IH]; [exists 1; split; [lra|]; intros; split; [intros ? []|reflexivity]|]. inversion Cl. subst.
    destruct (IH H2 (fun r0 H0 => Off r0 (or_intror H0)) (fun r0 H0 => Sb r0 (or_intror H0))) as (e1 & He1 & L1). destruct (C47_locally_constant r q (Sb r (or_introl eq_refl)) (Off r (or_introl eq_refl))) as (e2 & He2 & L2).
    exists (Rmin e1 e2). split; [now apply Rmin_glb_lt|]. intros q' Hq. destruct (L1 q') as [O1 W1]; [eapply Rlt_le_trans; [exact Hq|apply Rmin_l]|]. destruct (L2 q') as [O2 W2]; [eapply Rlt_le_trans; [exact Hq|apply Rmin_r]|]. split.
    - intros r0 [<-|H0]; auto.
    - unfold windingSum in *. cbn [map fold_right]. now rewrite W1, W2. }
  destruct Ex as (e & He & Loc). destruct (NI q e L He) as (q' & Hq & St & Sq). destruct (Loc q' Hq) as [Off' W']. rewrite <- W'. now apply (W q' Off').
Qed.

(** ** The chamfered square of PropsOffsetExample meets the hypotheses *)
Lemma segLength_nonneg v1 v2 : Rabs (bulge v1) <= 1 -> 0 <= segLength v1 v2.
Proof.
  intros Hb. destruct (fuzzyEqual (pos v1) (pos v2) (1 / 100000000)) eqn:F.
  - unfold segLength. rcbn. rewrite F. lra.
  - destruct (C16_segLength v1 v2 F Hb) as [L1 L2]. destruct (classic (isLine v1)) as [Hl|Hl]; [rewrite (L1 Hl); apply dist_nonneg|]. rewrite (L2 Hl).
    pose proof (not_fuzzy_ne _ _ (1 / 100000000) ltac:(lra) F) as N12. pose proof (radius_pos v1 v2 (notLine_ne _ Hl) N12) as Hr. apply Rmult_le_pos; [lra|apply Rabs_pos].
Qed.

Lemma segLength_chord v1 v2 : Rabs (bulge v1) <= 1 -> fuzzyEqual (pos v1) (pos v2) (1 / 100000000) = false -> dist (pos v1) (pos v2) <= segLength v1 v2.
Proof.
  intros Hb F. destruct (C16_segLength v1 v2 F Hb) as [L1 L2]. destruct (classic (isLine v1)) as [Hl|Hl]; [rewrite (L1 Hl); lra|]. rewrite (L2 Hl).
  pose proof (not_fuzzy_ne _ _ (1 / 100000000) ltac:(lra) F) as N12. pose proof (notLine_ne _ Hl) as Hne. pose proof (radius_pos v1 v2 Hne N12) as Hr.
  pose proof (dist_ctr _ _ Hne N12) as Ed. pose proof (ctr_spec (pos v1) (pos v2) _ Hne) as Hc. unfold arcCentre in Hc. rewrite <- Hc at 1. rewrite chord_rot. rewrite <- Ed.
  pose proof (sin_le_abs (sweep (bulge v1) / 2)) as Sb. rewrite (Rabs_div (sweep (bulge v1)) 2), (Rabs_pos_eq 2) in Sb by lra. rewrite Ed in *.
  set (r := radius (arcRadiusAndCenter v1 v2)) in *. nra.
Qed.

Lemma path_first x y l : (forall u w, In (u, w) (segsOf (x :: y :: l)) -> Rabs (bulge u) <= 1) -> segLength x y <= getPathLength (mkPline false (x :: y :: l)).
Proof.
  intros Hb. rewrite getPathLength_sum, trace_open. unfold traceOf. cbn [segsOf openSegs map] in *. rewrite sumR_cons.
  assert (E : lengthOf (seg3 (x, y)) = segLength x y) by (destruct x, y; reflexivity). rewrite E.
  assert (G : forall l' z, (forall u w, In (u, w) (openSegs z l') -> Rabs (bulge u) <= 1) -> 0 <= sumR (map lengthOf (map seg3 (openSegs z l')))).
  { clear. induction l' as [|w l' IH]; intros z H; [cbn; lra|]. cbn [openSegs map] in *. rewrite sumR_cons. assert (0 <= lengthOf (seg3 (z, w))). { assert (Ez : lengthOf (seg3 (z, w)) = segLength z w) by (destruct z, w; reflexivity). rewrite Ez. apply segLength_nonneg, (H z w). now left. }
    specialize (IH w (fun u v Hv => H u v (or_intror Hv))). lra. }
  specialize (G l y (fun u w Hv => Hb u w (or_intror Hv))). lra.
Qed.

(** a stretch is not tiny if the vertex after its start is more than 1/100 away from it *)
Lemma part_long raw X k a d b l : closedPline raw -> smallBulges raw -> spaced raw X -> (forall q q', X q -> X q' -> q <> q' -> wellApart q q') ->
  (k < length (vertexes raw))%nat -> (d <= length (vertexes raw))%nat -> run raw k a d b l -> clearOf raw X k a d b -> X (seg raw k a) -> X (seg raw (k + d) b) ->
  (1 <= d)%nat -> 1 / 100 < dist (seg raw k a) (pos (vert raw k 1)) -> ~ tinyLoop l.
Proof.
  intros CL SB Sp Ap Hk Hd R C Xa Xb H1 Hl [_ T]. assert (Pt : part raw X l) by (exists k, a, d, b; repeat (split; [assumption|]); assumption). destruct (run_ends raw k a d b l R) as (E0 & _).
  assert (Ex : exists x y l', l = x :: y :: l' /\ pos y = pos (vert raw k 1)).
  { destruct R as (_ & _ & R). destruct d as [|d']; [lia|]. destruct R as (w & us & e & -> & _ & _ & _ & _ & _ & _ & Eu). destruct d' as [|d'']; cbn [seq map app]; eauto 6. }
  destruct Ex as (x & y & l' & -> & Ey). cbn [hd] in E0.
  assert (Sm : forall u w, In (u, w) (segsOf (x :: y :: l')) -> Rabs (bulge u) <= 1). { intros u w Hin. destruct (run_piece_of raw X _ u w CL SB Sp Ap Pt Hin) as (_ & _ & _ & _ & _ & _ & _ & _ & Bx & _). exact Bx. }
  pose proof (path_first x y l' Sm) as P1. assert (Bx : Rabs (bulge x) <= 1) by (apply (Sm x y); now left).
  assert (F : fuzzyEqual (pos x) (pos y) (1 / 100000000) = false).
  { destruct (fuzzyEqual (pos x) (pos y) (1 / 100000000)) eqn:F; [|reflexivity]. apply fuzzyEqual_R in F. destruct F as [F1 F2]. exfalso. rewrite E0, Ey in F1, F2.
    assert (D : dist (seg raw k a) (pos (vert raw k 1)) <= Rabs (vx (seg raw k a) - vx (pos (vert raw k 1))) + Rabs (vy (seg raw k a) - vy (pos (vert raw k 1)))).
    { set (u := vx (seg raw k a) - vx (pos (vert raw k 1))). set (w := vy (seg raw k a) - vy (pos (vert raw k 1))). rewrite dist_sqd. unfold sqd. fold u w. rewrite <- (sqrt_square (Rabs u + Rabs w)) by (pose proof (Rabs_pos u); pose proof (Rabs_pos w); lra).
      apply sqrt_le_1_alt. replace (u * u) with (Rabs u * Rabs u) by (rewrite <- Rabs_mult; apply Rabs_right, Rle_ge, sq_nonneg). replace (w * w) with (Rabs w * Rabs w) by (rewrite <- Rabs_mult; apply Rabs_right, Rle_ge, sq_nonneg). pose proof (Rabs_pos u). pose proof (Rabs_pos w). nra. }
    lra. }
  pose proof (segLength_chord x y Bx F) as P2. rewrite E0, Ey in P2. lra.
Qed.

Example C67_chamfer : exists raw dual, createRawOffsetPline chamfer 15 = Ok raw /\ createRawOffsetPline chamfer (- (15)) = Ok dual /\
  clearRaw chamfer 15 /\ clearRaw chamfer (- (15)) /\ simplePath chamfer /\ indexable chamfer /\ 1 / 10000 <= Rabs 15 /\ (48 * Z.of_nat (length (vertexes chamfer)) * Z.of_nat (length (vertexes chamfer)) <= 2 ^ 24)%Z /\
  spread raw /\ offsetPosition false raw dual /\ decisive chamfer raw 15 (cutPoint false raw dual) /\ noFalseHits chamfer raw 15 /\ (forall l, part raw (cutPoint false raw dual) l -> ~ tinyLoop l) /\
  (exists q, onPath raw q /\ cutPoint false raw dual q).
Proof.
  destruct C58_chamfer as (raw & dual & H1 & H2 & H3 & H4 & H5 & H6 & H7 & H8 & H9 & H10 & _ & H11 & Hcut & _). exists raw, dual. pose proof cham_simple. repeat (split; [assumption|]). split; [|exact Hcut].
  destruct cham_raw as (vs & Er & Hpos & Hline). assert (raw = mkPline true vs) by congruence. subst raw.
  intros l (k & a & e & b & Hk & He & R & C & Xa & Xb).
  assert (HX : forall q, cutPoint false (mkPline true vs) dual q -> q = mkV 85 85) by (intros q [Q|[Q _]]; [now apply (in_double vs Hpos Hline)|discriminate]).
  pose proof (HX _ Xa) as Ea. pose proof (HX _ Xb) as Eb. assert (CL : closedPline (mkPline true vs)) by (split; [reflexivity|cbn [vertexes]; rewrite (vs_len vs Hpos); lia]).
  assert (E1 : (1 <= e)%nat).
  { destruct e as [|e]; [|lia]. exfalso. destruct R as (Ra & Rb & _ & _ & _ & Hab & _). rewrite Nat.add_0_r in Eb. rewrite <- Ea in Eb. cbn [vertexes] in Hk. rewrite (vs_len vs Hpos) in Hk. rewrite !(in_seg vs Hpos Hline) in Eb. pose proof (f_equal vx Eb) as B1. pose proof (f_equal vy Eb) as B2.
    clear - Hk Hab B1 B2. five k Hk; cbn [chamferRaw nth Nat.modulo Nat.divmod Nat.add Nat.sub fst snd lerp vx vy] in B1, B2; lra. }
  apply (part_long (mkPline true vs) (cutPoint false (mkPline true vs) dual) k a e b l); auto; [apply (op_arcs _ _ _ H9)|apply (op_spaced _ _ _ H9)|apply (op_apart _ _ _ H9)|].
  rewrite Ea. rewrite (proj2 (proj2 (in_vert vs Hpos Hline k 1))). cbn [vertexes] in Hk. rewrite (vs_len vs Hpos) in Hk. clear - Hk.
  apply Rlt_le_trans with 1; [lra|]. apply dist_coord. five k Hk; cbn [chamferRaw nth Nat.modulo Nat.divmod Nat.add Nat.sub fst snd vx vy]; first [left; rewrite Rabs_right; lra|left; rewrite Rabs_left; lra|right; rewrite Rabs_right; lra|right; rewrite Rabs_left; lra].
Qed.
