(** * C53: areas and lengths of the results of boolean operations *)
From Coq Require Import ZArith Reals Lra Lia Psatz List Bool Arith Permutation Sorted.
From Coquelicot Require Import Coquelicot.
From Verif Require Import Base Num MathUtils PlineSegment SpatialIndex Polyline Intersects Combine StdLaws RGeom Spec PropsMath ArcGeom Polar PropsSegment PropsClosest PropsIntr PropsPlineIntr PropsPolyline PropsArea Turning PropsWinding PropsPlineIndex PropsFindIntr PropsRegion PropsCoincident PropsSlices PropsStitch PropsCombine PropsPieces PropsTrace PropsBoolOps PropsCover PropsEuler PropsBalance PropsRegionOps.
Import ListNotations.
Open Scope R_scope.

(** ** Quantities that add up along a segment *)
Definition additive (mu : vec * R * vec -> R) : Prop := exists M : vertex -> vertex -> R -> R -> R,
  (forall v1 v2 a b c, Rabs (bulge v1) <= 1 -> 0 <= a -> a <= b -> b <= c -> c <= 1 -> M v1 v2 a c = M v1 v2 a b + M v1 v2 b c) /\
  (forall v1 v2 a b u w, Rabs (bulge v1) <= 1 -> 0 <= a -> a < b -> b <= 1 -> piece v1 v2 a b u w -> Rabs (bulge u) <= 1 -> mu (seg3 (u, w)) = M v1 v2 a b).

(** *** twice the area *)
Lemma piece_green v1 v2 a b u w s : piece v1 v2 a b u w -> green (segPath u w) s = (b - a) * green (segPath v1 v2) (a + s * (b - a)).
Proof.
  intros H. destruct (seg_smooth v1 v2 (segPath v1 v2) (segPath_ok v1 v2)) as [DX DY].
  rewrite (green_ext _ (fun s => segPath v1 v2 (a + s * (b - a))) s H). unfold green.
  assert (K : forall f : R -> R, (forall t, ex_derive f t) -> Derive (fun u => f (a + u * (b - a))) s = (b - a) * Derive f (a + s * (b - a))).
  { intros f Df. rewrite (Derive_comp f (fun u => a + u * (b - a)) s); [|apply Df|auto_derive; auto]. f_equal. apply is_derive_unique. auto_derive; auto. ring. }
  rewrite (K (fun t => vx (segPath v1 v2 t)) DX), (K (fun t => vy (segPath v1 v2 t)) DY). rring.
Qed.

Lemma green_part v1 v2 a b : 0 <= a -> a <= b -> b <= 1 -> ex_RInt (green (segPath v1 v2)) a b.
Proof.
  intros Ha Hab Hb1. apply (ex_RInt_Chasles_1 (V := R_CompleteNormedModule)) with (c := 1); [lra|]. apply (ex_RInt_Chasles_2 (V := R_CompleteNormedModule)) with (a := 0); [lra|].
  eexists. apply (seg_green v1 v2). apply segPath_ok.
Qed.

Lemma area_additive : additive areaOf.
Proof.
  exists (fun v1 v2 a b => RInt (green (segPath v1 v2)) a b). split.
  - intros v1 v2 a b c _ Ha Hab Hbc Hc. symmetry. apply (RInt_Chasles (V := R_CompleteNormedModule)); apply green_part; lra.
  - intros v1 v2 a b u w _ Ha Hab Hb H _. pose proof (seg_green u w (segPath u w) (segPath_ok u w)) as E. rewrite <- (is_RInt_unique (V := R_CompleteNormedModule) _ _ _ _ E).
    apply (is_RInt_unique (V := R_CompleteNormedModule)).
    apply (is_RInt_ext (V := R_NormedModule) (fun y => scal (b - a) (green (segPath v1 v2) ((b - a) * y + a)))).
    + intros s _. rewrite (piece_green v1 v2 a b u w s H). unfold scal. cbn. unfold mult. cbn. do 2 f_equal. ring.
    + apply (is_RInt_comp_lin (V := R_NormedModule)). replace ((b - a) * 0 + a) with a by ring. replace ((b - a) * 1 + a) with b by ring.
      apply (RInt_correct (V := R_CompleteNormedModule)). apply green_part; lra.
Qed.

(** *** length *)
(** the length of the path of a segment (the library's [segLength] is the same except for very short segments, which it takes to have length 0) *)
Definition arcLen (v1 v2 : vertex) : R := if Rlt_dec (Rabs (bulge v1)) (1 / 100000) then dist (pos v1) (pos v2) else dist (ctrOf v1 v2) (pos v1) * Rabs (sweep (bulge v1)).
Definition len3 (e : vec * R * vec) : R := arcLen (fst (un3 e)) (snd (un3 e)).

Lemma arcLen_nonneg v1 v2 : 0 <= arcLen v1 v2.
Proof. unfold arcLen. destruct (Rlt_dec _ _); [apply dist_nonneg|]. apply Rmult_le_pos; [apply dist_nonneg|apply Rabs_pos]. Qed.

Lemma rot_dx (c p : vec) (th t : R) : Derive (fun s => vx (rot c (s * th) p)) t = - th * (sin (t * th) * (vx p - vx c) + cos (t * th) * (vy p - vy c)).
Proof. apply is_derive_unique. unfold rot. cbn [vx vy]. auto_derive; auto. rcbn. ring. Qed.
Lemma rot_dy (c p : vec) (th t : R) : Derive (fun s => vy (rot c (s * th) p)) t = th * (cos (t * th) * (vx p - vx c) - sin (t * th) * (vy p - vy c)).
Proof. apply is_derive_unique. unfold rot. cbn [vx vy]. auto_derive; auto. rcbn. ring. Qed.

(** the speed along the path is constant *)
Lemma arcLen_speed v1 v2 t : Derive (fun s => vx (segPath v1 v2 s)) t * Derive (fun s => vx (segPath v1 v2 s)) t + Derive (fun s => vy (segPath v1 v2 s)) t * Derive (fun s => vy (segPath v1 v2 s)) t = arcLen v1 v2 * arcLen v1 v2.
Proof.
  unfold arcLen. destruct (Rlt_dec _ _) as [L|L].
  - rewrite (Derive_ext (fun s => vx (segPath v1 v2 s)) (fun s => vx (pos v1) + s * (vx (pos v2) - vx (pos v1)))) by (intros s; rewrite segPath_line by auto; reflexivity).
    rewrite (Derive_ext (fun s => vy (segPath v1 v2 s)) (fun s => vy (pos v1) + s * (vy (pos v2) - vy (pos v1)))) by (intros s; rewrite segPath_line by auto; reflexivity).
    replace (Derive (fun s => vx (pos v1) + s * (vx (pos v2) - vx (pos v1))) t) with (vx (pos v2) - vx (pos v1)) by (symmetry; apply is_derive_unique; auto_derive; auto; ring).
    replace (Derive (fun s => vy (pos v1) + s * (vy (pos v2) - vy (pos v1))) t) with (vy (pos v2) - vy (pos v1)) by (symmetry; apply is_derive_unique; auto_derive; auto; ring).
    rewrite dist_sq. rring.
  - set (c := ctrOf v1 v2). set (th := sweep (bulge v1)). set (p := pos v1).
    rewrite (Derive_ext (fun s => vx (segPath v1 v2 s)) (fun s => vx (rot c (s * th) p))) by (intros s; rewrite segPath_arc by auto; reflexivity).
    rewrite (Derive_ext (fun s => vy (segPath v1 v2 s)) (fun s => vy (rot c (s * th) p))) by (intros s; rewrite segPath_arc by auto; reflexivity).
    rewrite rot_dx, rot_dy.
    assert (ED : dist c p * dist c p = (vx p - vx c) * (vx p - vx c) + (vy p - vy c) * (vy p - vy c)) by (rewrite dist_sq; rring).
    assert (EA : Rabs th * Rabs th = th * th) by (rewrite <- Rabs_mult; apply Rabs_pos_eq; nra).
    replace (dist c p * Rabs th * (dist c p * Rabs th)) with ((dist c p * dist c p) * (Rabs th * Rabs th)) by ring. rewrite ED, EA.
    pose proof (sin2_cos2 (t * th)) as S. unfold Rsqr in S.
    replace (((vx p - vx c) * (vx p - vx c) + (vy p - vy c) * (vy p - vy c)) * (th * th)) with ((sin (t * th) * sin (t * th) + cos (t * th) * cos (t * th)) * (((vx p - vx c) * (vx p - vx c) + (vy p - vy c) * (vy p - vy c)) * (th * th))) by (rewrite S; ring).
    ring.
Qed.

Lemma piece_len v1 v2 a b u w : a < b -> piece v1 v2 a b u w -> arcLen u w = (b - a) * arcLen v1 v2.
Proof.
  intros Hab H. destruct (seg_smooth v1 v2 (segPath v1 v2) (segPath_ok v1 v2)) as [DX DY].
  pose proof (arcLen_speed u w 0) as E. pose proof (arcLen_speed v1 v2 (a + 0 * (b - a))) as E'.
  assert (K : forall f : R -> R, (forall t, ex_derive f t) -> Derive (fun u => f (a + u * (b - a))) 0 = (b - a) * Derive f (a + 0 * (b - a))).
  { intros f Df. rewrite (Derive_comp f (fun u => a + u * (b - a)) 0); [|apply Df|auto_derive; auto]. f_equal. apply is_derive_unique. auto_derive; auto. ring. }
  rewrite (Derive_ext (fun s => vx (segPath u w s)) (fun s => vx (segPath v1 v2 (a + s * (b - a))))) in E by (intros s; now rewrite H).
  rewrite (Derive_ext (fun s => vy (segPath u w s)) (fun s => vy (segPath v1 v2 (a + s * (b - a))))) in E by (intros s; now rewrite H).
  rewrite (K (fun t => vx (segPath v1 v2 t)) DX), (K (fun t => vy (segPath v1 v2 t)) DY) in E.
  pose proof (arcLen_nonneg u w). pose proof (arcLen_nonneg v1 v2). apply Rsqr_inj; [auto|apply Rmult_le_pos; lra|]. unfold Rsqr. rewrite <- E.
  replace ((b - a) * arcLen v1 v2 * ((b - a) * arcLen v1 v2)) with ((b - a) * (b - a) * (arcLen v1 v2 * arcLen v1 v2)) by ring. rewrite <- E'. ring.
Qed.

Lemma len3_seg3 v1 v2 : len3 (seg3 (v1, v2)) = arcLen v1 v2.
Proof. destruct v1, v2. reflexivity. Qed.

Lemma len_additive : additive len3.
Proof.
  exists (fun v1 v2 a b => (b - a) * arcLen v1 v2). split.
  - intros. ring.
  - intros v1 v2 a b u w _ _ Hab _ H _. rewrite len3_seg3. now apply piece_len.
Qed.

Lemma len3_lengthOf e : far (fst (fst e)) (snd e) -> ok3 e -> lengthOf e = len3 e.
Proof.
  destruct e as [[p b] q]. unfold ok3. cbn [fst snd]. intros F Hb. unfold lengthOf, len3, un3, arcLen. cbn [fst snd pos bulge].
  destruct (C16_segLength (mkVtx p b) (mkVtx q 0)) as [H1 H2]; [|exact Hb|].
  { apply not_true_iff_false. rewrite fuzzyEqual_R. cbn [pos]. intros [X Y]. destruct F; lra. }
  cbn [pos bulge] in *. destruct (Rlt_dec (Rabs b) (1 / 100000)) as [L|L]; [now apply H1|]. rewrite (H2 L). f_equal.
  assert (Nb : b <> 0) by (intros ->; apply L; rewrite Rabs_R0; lra). unfold ctrOf. cbn [pos bulge].
  symmetry. apply (dist_ctr (mkVtx p b) (mkVtx q 0)); [exact Nb|]. cbn [pos]. now apply far_ne.
Qed.

(** ** The parts of the boundaries in the four results *)
Section Side.
Context {SL : StdLib} {SLaws : StdLaws SL}.
Context (pl other : polyline) (X : vec -> Prop) (cs : list (nat * slicePoint)).
Hypothesis (Cpl : closedPline pl) (Spl : smallBulges pl) (So : smallBulges other) (Hsp : spaced pl X)
  (Hap : forall q q', X q -> X q' -> q <> q' -> wellApart q q').
Hypothesis Hsound : forall k c, In (k, c) cs -> (k < length (vertexes pl))%nat /\ spStart c = false /\ onSeg (vert pl k 0) (vert pl k 1) (spPos c) /\ X (spPos c).
Hypothesis Hcompl : forall k q, (k < length (vertexes pl))%nat -> onSeg (vert pl k 0) (vert pl k 1) q -> onPath other q -> In (k, mkSP q false) cs.
Hypothesis Hne : exists k c, In (k, c) cs.

(** what one test drops the opposite test keeps *)
Lemma kept_negb (g : bool -> bool) : keptS pl other cs (fun w => negb (g (negb (w =? 0)%Z))) = droppedS pl other cs (fun w => g (negb (w =? 0)%Z)).
Proof.
  unfold keptS, droppedS. assert (G : forall ks, (forall k, In k ks -> (k < length (vertexes pl))%nat) ->
    flat_map (fun k => filter (accepted (fun p => negb (g (negb (getWindingNumber other p =? 0)%Z)))) (stretches pl cs k)) ks = flat_map (fun k => filter (fun l => negb (accepted (fun p => g (negb (getWindingNumber other p =? 0)%Z)) l)) (stretches pl cs k)) ks).
  { induction ks as [|k ks IH]; intros H; [reflexivity|]. cbn [flat_map]. f_equal; [|apply IH; intros; apply H; now right]. apply filter_ext_in. intros l Hl. apply accepted_negb.
    destruct (stretch_run pl other cs (proj2 Cpl) Spl (side_sep pl X cs Cpl Hsp Hsound) (side_cut pl X cs Cpl Hsp Hsound) (side_pair pl X cs Cpl Hsp Hap Hsound) Hcompl k l (H k (or_introl eq_refl)) Hl) as (a & d & b & (_ & _ & R) & _).
    destruct d; [destruct R as (u & w & -> & _); cbn; lia|]. destruct R as (w & us & e & -> & _). rewrite !app_length. cbn [length]. lia. }
  apply G. intros k Hk. apply in_seq in Hk. lia.
Qed.

Lemma side_additive f mu : additive mu -> sumR (map mu (flat_map traceOf (keptS pl other cs f))) + sumR (map mu (flat_map traceOf (droppedS pl other cs f))) = sumR (map mu (trace pl)).
Proof.
  intros (M & Ma & Mp). rewrite (side_cover pl other X cs Cpl Spl Hsp Hap Hsound Hne f mu (fun k => M (vert pl k 0) (vert pl k 1))).
  - unfold trace. rewrite map_map, <- (sumR_perm _ _ (Permutation_map _ (segs_perm pl Cpl))), map_map. apply sum_ext. intros k Hk. symmetry. apply Mp; try lra; try apply (vert_small pl (proj2 Cpl) Spl).
    intros s. f_equal. ring.
  - intros k a b c Hk Ha Hab Hbc Hc. apply Ma; auto. apply (vert_small pl (proj2 Cpl) Spl).
  - intros k a b u w Hk Ha Hab Hb P Bu. apply Mp; auto. apply (vert_small pl (proj2 Cpl) Spl).
Qed.

(** the segments of the kept parts are not too short *)
Lemma kept_far f l e : In l (keptS pl other cs f) -> In e (traceOf l) -> far (fst (fst e)) (snd e).
Proof.
  intros H He. destruct (kept_ends pl other X cs Cpl Spl So Hsp Hap Hsound Hcompl f l H) as [X1 X2]. destruct Hsp as (F1 & F2 & _). destruct Cpl as [Hc H2].
  destruct (run_of pl other X cs Cpl Spl Hsp Hap Hsound Hcompl f l (or_introl H)) as (k & a & d & b & Hk & _ & (Ha & Hb & R)).
  destruct d as [|d'].
  - destruct R as (u & w & -> & Hab & P & Bu). cbn in He. destruct He as [<-|[]]. unfold seg3. cbn [fst snd]. cbn [hd last] in X1, X2.
    destruct (Hap _ _ X1 X2) as [L|L]; [|left; lra|right; lra]. rewrite (piece_start _ _ _ _ _ _ P), (piece_end _ _ _ _ _ _ P). intros E.
    apply segPath_inj in E; [lra|apply (vert_small pl H2 Spl)|apply far_ne, (vert_far pl cs H2 (side_sep pl X cs Cpl Hsp Hsound))|auto|auto].
  - destruct R as (w & us & e0 & -> & Ha1 & Hb0 & Pw & Bw & P & Bu & Eu). cbn [app hd] in X1.
    assert (EL : last ([w] ++ map (vert pl k) (seq 1 d') ++ [us; e0]) vdflt = e0) by (rewrite app_assoc; change [us; e0] with ([us] ++ [e0]); rewrite app_assoc; apply last_last). rewrite EL in X2.
    assert (VF : forall j, far (pos (vert pl k j)) (pos (vert pl k (S j)))) by (intros j; apply (vert_far pl cs H2 (side_sep pl X cs Cpl Hsp Hsound))).
    assert (FU : far (pos us) (pos e0)) by (rewrite Eu; apply far_sym, F2; [apply (vert_in pl H2)|auto]).
    assert (G : forall m j v, far (pos v) (pos (vert pl k j)) -> pos us = pos (vert pl k (j + m)) -> forall e, In e (map seg3 (openSegs v (map (vert pl k) (seq j m) ++ [us; e0]))) -> far (fst (fst e)) (snd e)).
    { induction m as [|m IH]; intros j v Fv Eus y Hy.
      - cbn in Hy. rewrite Nat.add_0_r in Eus. destruct Hy as [<-|[<-|[]]]; unfold seg3; cbn [fst snd]; [now rewrite Eus|auto].
      - cbn [seq map app openSegs] in Hy. destruct Hy as [<-|Hy]; [unfold seg3; cbn [fst snd]; auto|]. apply (IH (S j) (vert pl k j)); auto. now rewrite Nat.add_succ_comm. }
    unfold traceOf in He. cbn [app segsOf] in He. apply (G d' 1%nat w); auto. apply F2; [apply (vert_in pl H2)|auto].
Qed.
End Side.

Definition partsOf (mode : combineMode) (o : bool) (KA NA KB NB : list (vec * R * vec)) : list (vec * R * vec) :=
  match mode with
  | Union => NA ++ rv o NB
  | Intersect => KA ++ rv o KB
  | Exclude => NA ++ rv (negb o) KB
  | XOR => (NA ++ rv (negb o) KB) ++ (KA ++ rv (negb o) NB)
  end.

Definition opposite (A B : polyline) : bool := negb (Z.eqb (orient A) (orient B)).

Lemma opposite_eq A B : negb (Bool.eqb (getArea A <? t0)%t (getArea B <? t0)%t) = opposite A B.
Proof.
  unfold opposite, orient. rcbn. destruct (Rltb (getArea A) 0) eqn:E1, (Rltb (getArea B) 0) eqn:E2; rbool; destruct (Rlt_dec (getArea A) 0), (Rlt_dec (getArea B) 0); try lra; reflexivity.
Qed.

Lemma flat_map_app' {X Y} (f : X -> list Y) l l' : flat_map f (l ++ l') = flat_map f l ++ flat_map f l'.
Proof. induction l as [|x l IH]; [reflexivity|]. cbn [app flat_map]. now rewrite IH, app_assoc. Qed.

Lemma split_perm c (l : list polyline) : Permutation (remaining (splitByOrientation c l) ++ subtracted (splitByOrientation c l)) l.
Proof.
  unfold splitByOrientation. cbn [remaining subtracted]. induction l as [|p l IH]; [constructor|]. cbn [filter].
  destruct (negb (Bool.eqb (getArea p <? t0)%t c)); cbn [negb]; [|cbn [app]; now constructor]. symmetry. apply Permutation_cons_app. now symmetry.
Qed.

(** the pieces KA, NA, KB, NB of the input boundaries inside and outside the other polyline *)
Theorem result_parts {SL : StdLib} {SLaws : StdLaws SL} A B : closedPline A -> closedPline B -> indexable A ->
  (10 * Z.of_nat (length (vertexes A)) * Z.of_nat (length (vertexes B)) <= 2 ^ 24)%Z ->
  smallBulges A -> smallBulges B -> generalPosition A B -> (exists q, common A B q) -> simpleLoop A -> simpleLoop B ->
  exists KA NA KB NB,
    (forall mu, additive mu -> sumR (map mu KA) + sumR (map mu NA) = sumR (map mu (trace A))) /\
    (forall mu, additive mu -> sumR (map mu KB) + sumR (map mu NB) = sumR (map mu (trace B))) /\
    (forall e, In e (KA ++ NA ++ KB ++ NB) -> ok3 e /\ far (fst (fst e)) (snd e)) /\
    forall mode, exists r, combinePolylines A B mode = Ok r /\ List.Forall closedPline (remaining r ++ subtracted r) /\
      Permutation (flat_map trace (remaining r ++ subtracted r)) (partsOf mode (opposite A B) KA NA KB NB).
Proof.
  intros CA CB IA Hsz SA SB GP (x0 & X1 & X2) LA LB.
  destruct (gp_intersects A B CA CB IA SA SB GP) as (ix & intrs & E1 & E2 & Hs & Hc).
  assert (Hne : intrs <> []).
  { destruct X1 as (a1 & a2 & Ha & Oa). destruct X2 as (b1 & b2 & Hb & Ob). apply at_seg in Ha; [|apply CA]. apply at_seg in Hb; [|apply CB].
    destruct Ha as (i & Hi & -> & ->). destruct Hb as (j & Hj & -> & ->). intros N. specialize (Hc i j x0 Hi Hj Oa Ob). rewrite N in Hc. destruct Hc. }
  set (ci := mkInfo [] intrs [] [] [] (getArea A <? t0)%t (getArea B <? t0)%t).
  assert (OI : okInfo A B ci).
  { destruct (process_ok A B IA (proj2 CB)) as (ix' & ci' & E1' & E2' & H). rewrite E1 in E1'. injection E1' as <-. unfold processForCombine in E2'. rewrite E2 in E2'. cbn [bind] in E2'. injection E2' as <-. exact H. }
  assert (LEN : forall pA pB opp cs, collectSlices A B ci pA pB opp = Ok cs -> (Z.of_nat (length (slicesRemaining cs)) <= 2 ^ 24)%Z).
  { intros pA pB opp cs Ecs. destruct (collect_ok A B ci pA pB opp OI) as (cs' & Ecs' & _ & Lcs). rewrite Ecs in Ecs'. injection Ecs' as <-. lia. }
  assert (AC : forall gA gB opp cs, collectSlices A B ci (fun p => gA (inside B p)) (fun p => gB (inside A p)) opp = Ok cs ->
     startOfPlineACoincidentSlicesIdx cs = length (slicesRemaining cs) /\ startOfPlineBCoincidentSlicesIdx cs = length (slicesRemaining cs)).
  { intros gA gB opp cs Ecs. destruct (collect_exact A B intrs CA CB GP Hs gA gB opp) as (sA & sB & _ & _ & E). cbv zeta in E. fold ci in E. rewrite Ecs in E. injection E as ->. split; reflexivity. }
  pose proof (gp_first A B GP) as G1. pose proof (gp_second A B GP) as G2. pose proof (gp_apart A B GP) as G3.
  pose proof (sndA A B intrs CA CB Hs : forall k c, In (k, c) (cuts ci false) -> _) as S1. pose proof (sndB A B intrs CA CB Hs : forall k c, In (k, c) (cuts ci true) -> _) as S2.
  pose proof (cmpA A B intrs CB Hc : forall k q, _ -> _ -> _ -> In _ (cuts ci false)) as P1. pose proof (cmpB A B intrs CA Hc : forall k q, _ -> _ -> _ -> In _ (cuts ci true)) as P2.
  pose proof (neA A B intrs Hne : exists k c, In (k, c) (cuts ci false)) as N1. pose proof (neB A B intrs Hne : exists k c, In (k, c) (cuts ci true)) as N2.
  set (kA := fun g : bool -> bool => flat_map traceOf (keptS A B (cuts ci false) (fun w => g (negb (w =? 0)%Z)))).
  set (kB := fun g : bool -> bool => flat_map traceOf (keptS B A (cuts ci true) (fun w => g (negb (w =? 0)%Z)))).
  exists (kA (fun b => b)), (kA negb), (kB (fun b => b)), (kB negb).
  split; [|split; [|split]].
  - intros mu Hmu. unfold kA at 2. rewrite (kept_negb A B (common A B) _ CA SA G1 G3 S1 P1 (fun b => b)). apply (side_additive A B (common A B)); auto.
  - intros mu Hmu. unfold kB at 2. rewrite (kept_negb B A (common A B) _ CB SB G2 G3 S2 P2 (fun b => b)). apply (side_additive B A (common A B)); auto.
  - assert (FA : forall g e, In e (kA g) -> ok3 e /\ far (fst (fst e)) (snd e)).
    { intros g e He. apply in_flat_trace in He. destruct He as (l & Hl & He). split; [exact (proj2 (proj2 (run_shape A B (common A B) _ CA SA G1 G3 S1 P1 _ l (or_introl Hl))) e He)|exact (kept_far A B (common A B) _ CA SA SB G1 G3 S1 P1 _ l e Hl He)]. }
    assert (FB : forall g e, In e (kB g) -> ok3 e /\ far (fst (fst e)) (snd e)).
    { intros g e He. apply in_flat_trace in He. destruct He as (l & Hl & He). split; [exact (proj2 (proj2 (run_shape B A (common A B) _ CB SB G2 G3 S2 P2 _ l (or_introl Hl))) e He)|exact (kept_far B A (common A B) _ CB SB SA G2 G3 S2 P2 _ l e Hl He)]. }
    intros e He. rewrite !in_app_iff in He. destruct He as [He|[He|[He|He]]]; [exact (FA _ e He)|exact (FA _ e He)|exact (FB _ e He)|exact (FB _ e He)].
  - intros mode. destruct (C36_returns A B mode IA CA CB Hsz) as (r & Er & _). exists r. split; [exact Er|].
    destruct C34_selectors as (_ & SelU & SelX).
    unfold combinePolylines in Er. rewrite E1 in Er. cbn [bind] in Er. unfold processForCombine in Er. rewrite E2 in Er. cbn [bind] in Er. fold ci in Er.
    apply bind_inv in Er. destruct Er as (ia & _ & Er). apply bind_inv in Er. destruct Er as (ib & _ & Er).
    assert (EX : completelyCoincident ci = false) by reflexivity. rewrite EX in Er.
    assert (EY : anyIntersects ci = true). { unfold anyIntersects. cbn [ci ciSlices ciIntrs length Nat.eqb negb orb]. destruct intrs; [congruence|reflexivity]. }
    rewrite EY in Er. cbn [negb] in Er.
    assert (EO : plineOpposingDirections ci = opposite A B) by (rewrite <- opposite_eq; reflexivity).
    destruct mode.
    + apply bind_inv in Er. destruct Er as (cs & Ecs & Er). apply bind_inv in Er. destruct Er as (rem & Erem & Er). injection Er as <-. destruct (AC negb negb false cs Ecs) as [AC1 AC2]. rewrite AC1 in Erem.
      destruct (op_result A B intrs CA CB SA SB GP LA LB Hs Hc Hne negb negb false (regionOf Union) eq_refl (fun b => match b with true => eq_refl | false => eq_refl end) (fun b => match b with true => eq_refl | false => eq_refl end)
        cs _ rem Ecs (LEN _ _ _ _ Ecs) (SelU _) (union_chooses _) Erem) as (Q1 & Q2 & _).
      pose proof (split_perm (ciPline1IsCW ci) rem) as SP. split; [apply (Permutation_Forall (Permutation_sym SP)), Q1|]. eapply perm_trans; [apply (Permutation_flat_map _ SP)|].
      fold ci in Q2. rewrite EO in Q2. destruct (opposite A B); exact Q2.
    + apply bind_inv in Er. destruct Er as (cs & Ecs & Er). apply bind_inv in Er. destruct Er as (rem & Erem & Er). injection Er as <-. destruct (AC negb (fun b => b) true cs Ecs) as [AC1 AC2]. rewrite AC1, AC2 in Erem.
      destruct (op_result A B intrs CA CB SA SB GP LA LB Hs Hc Hne negb (fun b => b) true (regionOf Exclude) eq_refl (fun b => match b with true => eq_refl | false => eq_refl end) (fun b => match b with true => eq_refl | false => eq_refl end)
        cs _ rem Ecs (LEN _ _ _ _ Ecs) (SelX _ _ _) (xor_chooses _ _) Erem) as (Q1 & Q2 & _).
      cbn [remaining subtracted]. rewrite app_nil_r. split; [exact Q1|]. fold ci in Q2. rewrite EO in Q2. destruct (opposite A B); exact Q2.
    + apply bind_inv in Er. destruct Er as (cs & Ecs & Er). apply bind_inv in Er. destruct Er as (rem & Erem & Er). injection Er as <-. destruct (AC (fun b => b) (fun b => b) false cs Ecs) as [AC1 AC2]. rewrite AC1 in Erem.
      destruct (op_result A B intrs CA CB SA SB GP LA LB Hs Hc Hne (fun b => b) (fun b => b) false (regionOf Intersect) eq_refl (fun b => match b with true => eq_refl | false => eq_refl end) (fun b => match b with true => eq_refl | false => eq_refl end)
        cs _ rem Ecs (LEN _ _ _ _ Ecs) (SelU _) (union_chooses _) Erem) as (Q1 & Q2 & _).
      cbn [remaining subtracted]. rewrite app_nil_r. split; [exact Q1|]. fold ci in Q2. rewrite EO in Q2. destruct (opposite A B); exact Q2.
    + apply bind_inv in Er. destruct Er as (cs & Ecs & Er). apply bind_inv in Er. destruct Er as (rem & Erem & Er). apply bind_inv in Er. destruct Er as (cs2 & Ecs2 & Er).
      apply bind_inv in Er. destruct Er as (rem2 & Erem2 & Er). injection Er as <-. destruct (AC negb (fun b => b) true cs Ecs) as [AC1 AC2]. rewrite AC1, AC2 in Erem. destruct (AC (fun b => b) negb true cs2 Ecs2) as [AC3 AC4]. rewrite AC3, AC4 in Erem2.
      destruct (op_result A B intrs CA CB SA SB GP LA LB Hs Hc Hne negb (fun b => b) true (regionOf Exclude) eq_refl (fun b => match b with true => eq_refl | false => eq_refl end) (fun b => match b with true => eq_refl | false => eq_refl end)
        cs _ rem Ecs (LEN _ _ _ _ Ecs) (SelX _ _ _) (xor_chooses _ _) Erem) as (Q1 & Q2 & _).
      destruct (op_result A B intrs CA CB SA SB GP LA LB Hs Hc Hne (fun b => b) negb true (fun a b => (- if negb a && b then 1 else 0)%Z) eq_refl (fun b => match b with true => eq_refl | false => eq_refl end) (fun b => match b with true => eq_refl | false => eq_refl end)
        cs2 _ rem2 Ecs2 (LEN _ _ _ _ Ecs2) (SelX _ _ _) (xor_chooses _ _) Erem2) as (Q3 & Q4 & _).
      cbn [remaining subtracted]. rewrite app_nil_r. split; [apply Forall_app; split; [exact Q1|exact Q3]|]. rewrite flat_map_app'.
      fold ci in Q2, Q4. rewrite EO in Q2, Q4. apply Permutation_app; destruct (opposite A B); [exact Q2|exact Q2|exact Q4|exact Q4].
Qed.

(** ** The property *)
(** the areas of the result polylines, added up (with the signs that tell the direction of a polyline) *)
Definition areaSum (r : combineResult) : R := sumR (map getArea (remaining r ++ subtracted r)).
Definition lengthSum (r : combineResult) : R := sumR (map getPathLength (remaining r ++ subtracted r)).

Lemma areaSum_trace l : List.Forall closedPline l -> sumR (map getArea l) = sumR (map areaOf (flat_map trace l)) / 2.
Proof.
  induction l as [|p l IH]; intros H; [cbn; lra|]. inversion H. subst. cbn [map flat_map]. rewrite sumR_cons, IH by auto. rewrite map_app, sumR_app. rewrite (getArea_sum p) by apply H2. lra.
Qed.

Lemma lengthSum_trace l : sumR (map getPathLength l) = sumR (map lengthOf (flat_map trace l)).
Proof. induction l as [|p l IH]; [reflexivity|]. cbn [map flat_map]. rewrite sumR_cons, IH, map_app, sumR_app, getPathLength_sum. reflexivity. Qed.

Lemma area_rv o l : sumR (map areaOf (rv o l)) = (if o then -1 else 1) * sumR (map areaOf l).
Proof.
  destruct o; cbn [rv]; [|lra]. rewrite map_map, (map_ext _ _ areaOf_rev). rewrite <- (map_map areaOf Ropp), sumR_map_opp. lra.
Qed.

Lemma length_rv o l : (forall e, In e l -> ok3 e) -> sumR (map lengthOf (rv o l)) = sumR (map lengthOf l).
Proof.
  intros H. destruct o; cbn [rv]; [|reflexivity]. rewrite map_map. apply sum_ext. intros [[p b] q] He. apply lengthOf_rev. exact (H _ He).
Qed.

Theorem C53_areas {SL : StdLib} {SLaws : StdLaws SL} A B : closedPline A -> closedPline B -> indexable A ->
  (10 * Z.of_nat (length (vertexes A)) * Z.of_nat (length (vertexes B)) <= 2 ^ 24)%Z ->
  smallBulges A -> smallBulges B -> generalPosition A B -> (exists q, common A B q) -> simpleLoop A -> simpleLoop B ->
  exists u x e s, combinePolylines A B Union = Ok u /\ combinePolylines A B Intersect = Ok x /\ combinePolylines A B Exclude = Ok e /\ combinePolylines A B XOR = Ok s /\
    areaSum u + areaSum x = IZR (orient A) * (Rabs (getArea A) + Rabs (getArea B)) /\
    areaSum e + areaSum x = getArea A /\
    areaSum s = IZR (orient A) * (Rabs (getArea A) - Rabs (getArea B)) /\
    lengthSum u + lengthSum x = getPathLength A + getPathLength B /\
    lengthSum s = getPathLength A + getPathLength B.
Proof.
  intros CA CB IA Hsz SA SB GP HX LA LB. destruct (result_parts A B CA CB IA Hsz SA SB GP HX LA LB) as (KA & NA & KB & NB & MA & MB & OK & H).
  destruct (H Union) as (u & Eu & Cu & Pu). destruct (H Intersect) as (x & Ex & Cx & Px). destruct (H Exclude) as (e & Ee & Ce & Pe). destruct (H XOR) as (s & Es & Cs & Ps).
  exists u, x, e, s. do 4 (split; [assumption|]).
  assert (AS : forall r l, List.Forall closedPline (remaining r ++ subtracted r) -> Permutation (flat_map trace (remaining r ++ subtracted r)) l -> areaSum r = sumR (map areaOf l) / 2).
  { intros r l C P. unfold areaSum. rewrite (areaSum_trace _ C). f_equal. apply sumR_perm, Permutation_map, P. }
  assert (LS : forall r l, Permutation (flat_map trace (remaining r ++ subtracted r)) l -> lengthSum r = sumR (map lengthOf l)).
  { intros r l P. unfold lengthSum. rewrite lengthSum_trace. apply sumR_perm, Permutation_map, P. }
  pose proof (MA _ area_additive) as AA. pose proof (MB _ area_additive) as AB.
  assert (GA : getArea A = sumR (map areaOf (trace A)) / 2) by (apply getArea_sum, CA). assert (GB : getArea B = sumR (map areaOf (trace B)) / 2) by (apply getArea_sum, CB).
  assert (RA : Rabs (getArea A) = IZR (orient A) * getArea A). { unfold orient. destruct (Rlt_dec (getArea A) 0); [rewrite Rabs_left by auto|rewrite Rabs_pos_eq by lra]; lra. }
  assert (RB : Rabs (getArea B) = IZR (orient B) * getArea B). { unfold orient. destruct (Rlt_dec (getArea B) 0); [rewrite Rabs_left by auto|rewrite Rabs_pos_eq by lra]; lra. }
  assert (OO : IZR (orient A) * IZR (orient A) = 1) by (destruct (orient_pm A) as [-> | ->]; lra).
  assert (OB : IZR (orient A) * IZR (orient B) = if opposite A B then -1 else 1) by (unfold opposite; destruct (orient_pm A) as [-> | ->], (orient_pm B) as [-> | ->]; cbn; lra).
  assert (SG : (if negb (opposite A B) then -1 else 1) = - (if opposite A B then -1 else 1)) by (destruct (opposite A B); cbn; lra).
  assert (LA1 : sumR (map lengthOf KA) + sumR (map lengthOf NA) = getPathLength A /\ sumR (map lengthOf KB) + sumR (map lengthOf NB) = getPathLength B).
  { assert (TL : forall pl, spaced pl (common A B) -> smallBulges pl -> getPathLength pl = sumR (map len3 (trace pl))).
    { intros pl (F1 & _) Sp. rewrite getPathLength_sum. apply sum_ext. intros y Hy. unfold trace in Hy. apply in_map_iff in Hy. destruct Hy as ([v1 v2] & <- & Hy). apply len3_lengthOf; [exact (F1 _ _ Hy)|].
      exact (seg_start_small pl v1 v2 Sp Hy). }
    assert (LL : forall l, (forall y, In y l -> In y (KA ++ NA ++ KB ++ NB)) -> sumR (map lengthOf l) = sumR (map len3 l)).
    { intros l Hl. apply sum_ext. intros y Hy. destruct (OK y (Hl y Hy)) as [O1 O2]. now apply len3_lengthOf. }
    rewrite !LL by (intros y Hy; rewrite !in_app_iff; tauto). rewrite (MA _ len_additive), (MB _ len_additive). split; symmetry; apply TL; auto; apply GP. }
  destruct LA1 as [LA1 LB1].
  split; [|split; [|split; [|split]]].
  - rewrite (AS u _ Cu Pu), (AS x _ Cx Px). cbn [partsOf]. rewrite !map_app, !sumR_app, !area_rv, RA, RB.
    replace (IZR (orient A) * (IZR (orient A) * getArea A + IZR (orient B) * getArea B)) with (IZR (orient A) * IZR (orient A) * getArea A + IZR (orient A) * IZR (orient B) * getArea B) by ring.
    rewrite OO, OB, GA, GB, <- AA, <- AB. lra.
  - rewrite (AS e _ Ce Pe), (AS x _ Cx Px). cbn [partsOf]. rewrite !map_app, !sumR_app, !area_rv, SG, GA, <- AA. lra.
  - rewrite (AS s _ Cs Ps). cbn [partsOf]. rewrite !map_app, !sumR_app, !area_rv, SG, RA, RB.
    replace (IZR (orient A) * (IZR (orient A) * getArea A - IZR (orient B) * getArea B)) with (IZR (orient A) * IZR (orient A) * getArea A - IZR (orient A) * IZR (orient B) * getArea B) by ring.
    rewrite OO, OB, GA, GB, <- AA, <- AB. lra.
  - rewrite (LS u _ Pu), (LS x _ Px). cbn [partsOf]. rewrite !map_app, !sumR_app, !length_rv by (intros y Hy; apply OK; rewrite !in_app_iff; tauto). lra.
  - rewrite (LS s _ Ps). cbn [partsOf]. rewrite !map_app, !sumR_app, !length_rv by (intros y Hy; apply OK; rewrite !in_app_iff; tauto). lra.
Qed.

(** *** The hypotheses hold for two overlapping squares (C52_squares); there the union has area 7, the intersection 1 *)
Example C53_squares : getArea (square 0 0 2) = 4 /\ getArea (square 1 1 2) = 4 /\ orient (square 0 0 2) = 1%Z.
Proof.
  assert (H : forall x y, getArea (square x y 2) = 4).
  { intros x y. rewrite getArea_sum by reflexivity. unfold trace, pathSegs, square. cbn [vertexes isClosed openSegs app last map].
    rewrite !sumR_cons, sumR_nil. unfold seg3. cbn [fst snd pos bulge mkVertex]. rewrite !areaOf_line by (rewrite Rabs_R0; lra). cbn [vx vy]. rcbn. field. }
  split; [apply H|]. split; [apply H|]. unfold orient. rewrite H. destruct (Rlt_dec 4 0); [lra|reflexivity].
Qed.
