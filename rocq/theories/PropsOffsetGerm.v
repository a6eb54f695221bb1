(** * The two sides of the raw offset: across it the winding number changes by one, and the kept side is the one to which the offset moves (used by C67) *)
From Coq Require Import ZArith Reals Lra Lia List Bool Arith Permutation Classical.
From Coquelicot Require Import Coquelicot.
From Verif Require Import Base Num MathUtils PlineSegment SpatialIndex Polyline Intersects Combine Offset RGeom Spec PropsMath ArcGeom Polar PropsSegment PropsClosest PropsIntr PropsPlineIntr PropsPolyline PropsArea Turning PropsWinding PropsRegion PropsPlineIndex PropsExtents PropsCoincident PropsSlices PropsStitch PropsCombine PropsPieces PropsTrace PropsBoolOps PropsOffset PropsOffsetSlices PropsOffsetSegs PropsRawOffset PropsJoins PropsRawStructure PropsRawGeom PropsRawPoints PropsOffsetCuts PropsCover PropsRunPoints PropsBalance PropsJordan PropsOffsetConst PropsOffsetExact PropsOffsetSide.
Import ListNotations.
Open Scope R_scope.

(** ** Winding numbers next to a point through which the polyline runs once *)
Section Lone.
Variable pl : polyline.
Hypothesis CL : closedPline pl.
Hypothesis SB : smallBulges pl.
Notation n := (length (vertexes pl)).

Lemma germ_lone i t : (i < n)%nat -> 0 < t < 1 -> pos (vert pl i 0) <> pos (vert pl i 1) -> (forall k s, (k < n)%nat -> 0 <= s <= 1 -> seg pl k s = seg pl i t -> k = i) ->
  exists rest, germ pl (seg pl i t) (seg pl i) 0 t (seg pl i) t 1 rest.
Proof.
  intros Hi Ht Ni Lo. destruct (perm_one pl i Hi) as (l & P & Hl). set (sg := fun k => (vert pl k 0, vert pl k 1)). exists (map sg l). pose proof (sg_small pl CL SB i Hi) as Bi.
  assert (Sm : smoothP (seg pl i)) by apply seg_smoothP.
  split; [exact Sm|]. split; [exact Sm|]. split; [apply seg_armIn; auto; lra|]. split; [apply seg_armOut; auto; lra|]. split.
  - intros v1 v2 Hin. apply in_map_iff in Hin. destruct Hin as (k & E & Hk). injection E as <- <-. destruct (Hl k Hk) as [Hkn Nk]. split; [now apply (sg_small pl CL SB)|].
    intros O. apply onSeg_path in O. destruct O as (s & Hs & E). apply Nk. apply (Lo k s); auto.
  - split; [|split].
    + intros q O. rewrite <- (turnSum_sg pl CL SB _ q P O). cbn [map]. rewrite part_split; [reflexivity|exact Sm|lra|].
      intros s Hs E. apply O. apply (onPath_sg pl CL). exists i, s. auto.
    + intros q. rewrite (onPath_sg pl CL), !offPart_not. split.
      * intros (k & s & Hk & Hs & ->). destruct (Nat.eq_dec k i) as [->|N].
        -- destruct (Rle_dec s t); [left|right; left]; exists s; split; auto; lra.
        -- right. right. exists (vert pl k 0), (vert pl k 1). split; [|apply onSeg_path; exists s; auto]. apply (in_map sg). assert (In k (i :: l)) as [E|Q] by (apply (Permutation_in _ P), in_seq; lia); [congruence|auto].
      * intros [(s & Hs & ->)|[(s & Hs & ->)|(v1 & v2 & Hin & O)]]; [exists i, s; repeat split; auto; lra|exists i, s; repeat split; auto; lra|].
        apply in_map_iff in Hin. destruct Hin as (k & E & Hk). injection E as <- <-. apply onSeg_path in O. destruct O as (s & Hs & ->). exists k, s. split; [now apply Hl|]. auto.
    + intros s s' Hs Hs' E. apply segPath_inj in E; auto; lra.
Qed.

(** with the incoming and outgoing arm at angles th1 and th2 of every small circle, a property K that holds on exactly one of the two arcs between them decides the winding number *)
Lemma jump i t (K : vec -> Prop) (b : bool) r1 : (i < n)%nat -> 0 < t < 1 -> pos (vert pl i 0) <> pos (vert pl i 1) -> (forall k s, (k < n)%nat -> 0 <= s <= 1 -> seg pl k s = seg pl i t -> k = i) -> 0 < r1 ->
  (forall r, 0 < r < r1 -> exists s1 s2 th1 th2, 0 <= s1 <= t /\ t <= s2 <= 1 /\ seg pl i s1 = onCircle (seg pl i t) r th1 /\ seg pl i s2 = onCircle (seg pl i t) r th2 /\ th1 < th2 <= th1 + 2 * PI /\
    (forall th, th1 < th < th2 -> (K (onCircle (seg pl i t) r th) <-> b = false)) /\ (forall th, th2 < th < th1 + 2 * PI -> (K (onCircle (seg pl i t) r th) <-> b = true))) ->
  exists u de, 0 < de /\
    forall q', dist (seg pl i t) q' < de -> ~ onPath pl q' -> (K q' -> getWindingNumber pl q' = if b then u else (u - 1)%Z) /\ (~ K q' -> getWindingNumber pl q' = if b then (u - 1)%Z else u).
Proof.
  intros Hi Ht Ni Lo H1 HK. set (x := seg pl i t) in *. destruct (germ_lone i t Hi Ht Ni Lo) as (rest & G). fold x in G.
  destruct (circle_values _ _ _ _ _ _ _ _ _ G) as (ra & Ha & Va). destruct (nearVal_ex pl x ra SB Ha Va) as (u & ru & Hu & Vu).
  destruct (circle_arcs _ _ _ _ _ _ _ _ _ G) as (rb & Hb & _ & _ & Vb).
  exists u, (Rmin ru (Rmin rb r1)). split; [repeat apply Rmin_glb_lt; auto|].
  - intros q' Hq O. pose proof (Rmin_l ru (Rmin rb r1)). pose proof (Rmin_r ru (Rmin rb r1)). pose proof (Rmin_l rb r1). pose proof (Rmin_r rb r1).
    assert (Ox : onPath pl x) by (apply (onPath_sg pl CL); exists i, t; repeat split; auto; lra).
    set (r := dist x q') in *. assert (Hr : 0 < r). { destruct (dist_nonneg x q') as [|E]; [auto|]. exfalso. apply O. assert (x = q'); [|now subst]. apply dist_0. now symmetry. }
    destruct (HK r ltac:(lra)) as (s1 & s2 & th1 & th2 & Hs1 & Hs2 & E1 & E2 & Hth & K1 & K2).
    destruct (Vb r ltac:(lra) s1 s2 th1 th2 Hs1 Hs2 E1 E2 Hth) as (w & Tw & W1 & W2). assert (w = u) by (eapply twoValued_unique; [exact Tw|apply Vu; lra]). subst w.
    destruct (onCircle_ex x r q' th1 Hr eq_refl) as (th & Ht2 & Eq). rewrite Eq in O |- *. 
    destruct (Rtotal_order th th2) as [L|[E|L]].
    + rewrite (W1 th) by lra. pose proof (K1 th ltac:(lra)) as Q. destruct b; split; intros HQ; try reflexivity; exfalso; [apply Q in HQ; discriminate|apply HQ, Q; reflexivity].
    + exfalso. apply O. rewrite E, <- E2. apply (onPath_sg pl CL). exists i, s2. repeat split; auto; lra.
    + destruct (Req_dec th (th1 + 2 * PI)) as [E|Ne].
      * exfalso. apply O. rewrite E. replace (th1 + 2 * PI) with (th1 + IZR 1 * (2 * PI)) by ring. rewrite onCircle_per, <- E1. apply (onPath_sg pl CL). exists i, s1. repeat split; auto; lra.
      * rewrite (W2 th) by lra. pose proof (K2 th ltac:(lra)) as Q. destruct b; split; intros HQ; try reflexivity; exfalso; [apply HQ, Q; reflexivity|apply Q in HQ; discriminate].
Qed.
End Lone.

(** ** The kept side of the raw offset *)
Lemma on_circle_off d a b l r ph th : a <> b -> nrmX a b = - sin ph -> nrmY a b = cos ph ->
  leftw a b (onCircle (offPt d a b l) r th) = d + r * sin (th - ph) /\ along a b (onCircle (offPt d a b l) r th) = l + r * cos (th - ph).
Proof.
  intros N E1 E2. destruct (along_off d a b l N) as [F1 F2]. rewrite sin_minus, cos_minus. split.
  - rewrite <- F2 at 2. unfold leftw, onCircle. cbn [vx vy]. rewrite E1, E2. ring.
  - rewrite <- F1 at 2. unfold along, onCircle. cbn [vx vy]. rewrite E1, E2. ring.
Qed.

Lemma off_circle d a b l r ph : nrmX a b = - sin ph -> nrmY a b = cos ph -> offPt d a b (l + r) = onCircle (offPt d a b l) r ph /\ offPt d a b (l - r) = onCircle (offPt d a b l) r (ph - PI).
Proof.
  intros E1 E2. unfold offPt, onCircle. rewrite E1, E2, cos_minus, sin_minus, cos_PI, sin_PI. split; apply vec_eq; cbn [vx vy]; rring.
Qed.

Lemma along_lip a b z z' : a <> b -> Rabs (along a b z' - along a b z) <= dist z z'.
Proof.
  intros N. pose proof (nrm_unit a b N) as U. rewrite dist_sqd. rewrite <- sqrt_Rsqr_abs. apply sqrt_le_1_alt. unfold Rsqr, along, sqd. generalize (nrmX a b) (nrmY a b) U. clear. intros x y U.
  set (p := vx z' - vx z). set (w := vy z' - vy z).
  replace ((vx z' - vx a) * y - (vy z' - vy a) * x - ((vx z - vx a) * y - (vy z - vy a) * x)) with (p * y - w * x) by (unfold p, w; ring).
  replace ((vx z - vx z') * (vx z - vx z') + (vy z - vy z') * (vy z - vy z')) with ((p * p + w * w) * (x * x + y * y)) by (rewrite U; unfold p, w; ring).
  pose proof (sq_nonneg (p * x + w * y)). nra.
Qed.

(** the chord from the point at angle ph of a circle to the point at angle ph + 2 be *)
Lemma chord_circle c rho ph be : onCircle c rho (ph + 2 * be) = onCircle (onCircle c rho ph) (2 * rho * sin be) (ph + be + PI / 2).
Proof.
  set (x := ph + be). replace (ph + 2 * be) with (x + be) by (unfold x; ring). replace ph with (x - be) by (unfold x; ring). clearbody x. unfold onCircle. cbn [vx vy].
  rewrite (cos_plus x be), (sin_plus x be), (cos_minus x be), (sin_minus x be), (cos_plus x (PI / 2)), (sin_plus x (PI / 2)), cos_PI2, sin_PI2.
  apply vec_eq; cbn [vx vy]; rring.
Qed.

Lemma chord_circle' c rho ph be : onCircle c rho (ph - 2 * be) = onCircle (onCircle c rho ph) (2 * rho * sin be) (ph - be - PI / 2).
Proof.
  set (x := ph - be). replace (ph - 2 * be) with (x - be) by (unfold x; ring). replace ph with (x + be) by (unfold x; ring). clearbody x. unfold onCircle. cbn [vx vy].
  rewrite (cos_plus x be), (sin_plus x be), (cos_minus x be), (sin_minus x be), (cos_minus x (PI / 2)), (sin_minus x (PI / 2)), cos_PI2, sin_PI2.
  apply vec_eq; cbn [vx vy]; rring.
Qed.

Lemma sqd_circle c rho ph r th : sqd (onCircle (onCircle c rho ph) r th) c = rho * rho + r * r + 2 * rho * r * cos (th - ph).
Proof.
  unfold sqd, onCircle. cbn [vx vy]. rewrite cos_minus. pose proof (sin2_cos2 th) as S1. pose proof (sin2_cos2 ph) as S2. unfold Rsqr in S1, S2.
  transitivity (rho * rho * (sin ph * sin ph + cos ph * cos ph) + r * r * (sin th * sin th + cos th * cos th) + 2 * rho * r * (cos th * cos ph + sin th * sin ph)); [rring|rewrite S1, S2; ring].
Qed.

Section Kept.
Variables (pl : polyline) (d : R) (raw dual : polyline).
Hypothesis (HC : clearRaw pl d) (HC' : clearRaw pl (- d)) (Hd : d <> 0).
Hypothesis (Er : createRawOffsetPline pl d = Ok raw) (Ed : createRawOffsetPline pl (- d) = Ok dual).
Hypothesis (SBr : smallBulges raw).
Notation n := (length (vertexes pl)).
Notation N := (length (vertexes raw)).
Notation P := (pt pl).
Notation K := (keepsD pl d).
Notation tg := (tagAt pl d).

(** only the edges at distance |d| matter near a point that keeps its distance *)
Lemma near_active z (Q : nat -> Prop) : K z -> (forall j, (j < n)%nat -> activeE pl d j z -> Q j) ->
  exists e, 0 < e /\ forall z', dist z z' < e -> (forall j, (j < n)%nat -> Q j -> clearE pl d j z') -> K z'.
Proof.
  intros HK HQ. destruct (common_margin (fun j z' => Q j \/ clearE pl d j z') z n) as (e & He & M).
  { intros j Hj. destruct (classic (activeE pl d j z)) as [A|NA]; [exists 1; split; [lra|intros; left; auto]|]. destruct (inactive_margin pl d HC j z HK NA) as (e & He & M). exists e. split; auto. }
  exists e. split; [auto|]. intros z' Hz H. apply (keeps_finite pl d HC). intros j Hj. destruct (M z' Hz j Hj); auto.
Qed.

Variables (k : nat) (tau : R).
Hypothesis (Hk : (k < N)%nat) (Htau : 0 < tau < 1) (Ne : pos (vert raw k 0) <> pos (vert raw k 1)).
Hypothesis Lo : forall k' s, (k' < N)%nat -> 0 <= s <= 1 -> seg raw k' s = seg raw k tau -> k' = k.
Notation z := (seg raw k tau).
Hypothesis (HK : K z) (NDual : ~ onPath dual z).

Lemma active_tag j : (j < n)%nat -> activeE pl d j z -> tg k = Off j \/ tg k = Arc j \/ tg k = Arc (prevN pl j).
Proof.
  intros Hj HA. destruct (complete pl d raw dual HC HC' Hd Er Ed j z Hj HK HA) as [(k' & Hk' & O & T)|O]; [|contradiction].
  apply onSeg_path in O. destruct O as (s & Hs & E). rewrite (Lo k' s Hk' Hs (eq_sym E)) in T. exact T.
Qed.

Lemma sideways_off j : tg k = Off j -> exists r1, 0 < r1 /\ forall r, 0 < r < r1 -> exists s1 s2 th1 th2, 0 <= s1 <= tau /\ tau <= s2 <= 1 /\ seg raw k s1 = onCircle z r th1 /\ seg raw k s2 = onCircle z r th2 /\ th1 < th2 <= th1 + 2 * PI /\
    (forall th, th1 < th < th2 -> (K (onCircle z r th) <-> d < 0)) /\ (forall th, th2 < th < th1 + 2 * PI -> (K (onCircle z r th) <-> 0 < d)).
Proof.
  intros Et. pose proof (off_range pl d raw HC Er k j tau Hk Et ltac:(lra) HK) as Hr. pose proof (fun t => seg_off pl d raw HC Er k j t Hk Et) as Es.
  destruct (trim_bound pl d HC j) as [B1 _]. destruct (trim_bound pl d HC (before pl j)) as [[B2 _] _].
  set (s0 := trimC pl d (before pl j)) in *. set (w := len pl j - trimC pl d j - s0) in *.
  assert (Hw : 0 < w). { destruct (Req_dec w 0) as [E|]; [|unfold w in *; lra]. exfalso. apply Ne. pose proof (Es 0) as F0. pose proof (Es 1) as F1. rewrite E in F0, F1. unfold seg in F0, F1. rewrite segPath_0 in F0. rewrite segPath_1 in F1. rewrite F0, F1. f_equal. ring. }
  set (l := s0 + tau * w). assert (T1 : 0 < tau * w < w) by (split; nra). assert (Hl : 0 < l < len pl j) by (unfold l, w in *; lra).
  assert (Ez : z = edgePt pl d j l) by apply Es. pose proof (P_ne pl d HC j) as Np. destruct (heading _ _ Np) as (ph & E1 & E2). pose proof PI_RGT_0 as Hpi. pose proof (Rabs_pos_lt d Hd) as Da.
  destruct (near_active z (fun i => tg k = Off i \/ tg k = Arc i \/ tg k = Arc (prevN pl i)) HK active_tag) as (e & He & M).
  set (m := Rmin (Rmin (tau * w) (w - tau * w)) (Rmin (Rmin e (Rabs d)) (Rmin l (len pl j - l)))). assert (Hm : 0 < m) by (repeat apply Rmin_glb_lt; lra).
  exists m. split; [auto|]. intros r Hrm.
  assert (B : r < tau * w /\ r < w - tau * w /\ r < e /\ r < Rabs d /\ r < l /\ r < len pl j - l).
  { assert (r < m) by lra. unfold m in *. repeat match goal with H : r < Rmin ?a ?b |- _ => assert (r < a) by (eapply Rlt_le_trans; [exact H|apply Rmin_l]); assert (r < b) by (eapply Rlt_le_trans; [exact H|apply Rmin_r]); clear H end. repeat split; assumption. }
  exists (tau - r / w), (tau + r / w), (ph - PI), ph. assert (Dw : 0 < r / w) by (apply Rdiv_lt_0_compat; lra). assert (Ew : r / w * w = r) by (field; lra).
  assert (Circ : forall th, K (onCircle z r th) <-> d * d <= (d + r * sin (th - ph)) * (d + r * sin (th - ph))).
  { intros th. destruct (on_circle_off d (P j) (P (S j)) l r ph th Np E1 E2) as [F1 F2]. change (offPt d (P j) (P (S j)) l) with (edgePt pl d j l) in F1, F2. rewrite <- Ez in F1, F2.
    pose proof (COS_bound (th - ph)) as Cb. split.
    - intros HQ. specialize (HQ j (along (P j) (P (S j)) (onCircle z r th))). rewrite (sqd_along pl d HC) in HQ. rewrite <- F1. assert (H0 : 0 <= along (P j) (P (S j)) (onCircle z r th) <= len pl j) by (rewrite F2; split; nra).
      specialize (HQ H0). match goal with |- _ <= ?x => replace x with ((along (P j) (P (S j)) (onCircle z r th) - along (P j) (P (S j)) (onCircle z r th)) * (along (P j) (P (S j)) (onCircle z r th) - along (P j) (P (S j)) (onCircle z r th)) + x) by ring end. exact HQ.
    - intros HQ. apply M; [rewrite onCircle_dist; lra|]. intros i Hi [T|[T|T]]; rewrite Et in T; [|discriminate|discriminate]. injection T as <-. intros x Hx. rewrite (sqd_along pl d HC), F1. pose proof (sq_nonneg (along (P j) (P (S j)) (onCircle z r th) - x)). lra. }
  split; [split; [|lra]|]. { apply (Rmult_le_reg_r w); [lra|]. rewrite Rmult_0_l, Rmult_minus_distr_r. lra. }
  split; [split; [lra|]|]. { apply (Rmult_le_reg_r w); [lra|]. rewrite Rmult_1_l, Rmult_plus_distr_r. lra. }
  destruct (off_circle d (P j) (P (S j)) l r ph E1 E2) as [G1 G2].
  split; [rewrite Es, Ez; unfold edgePt in *; rewrite <- G2; f_equal; unfold l; rewrite Rmult_minus_distr_r, Ew; ring|].
  split; [rewrite Es, Ez; unfold edgePt in *; rewrite <- G1; f_equal; unfold l; rewrite Rmult_plus_distr_r, Ew; ring|].
  split; [lra|]. split.
  - intros th Hth. rewrite Circ. assert (Sg : 0 < sin (ph - th)) by (apply sin_gt_0; lra). replace (sin (th - ph)) with (- sin (ph - th)) by (rewrite <- sin_neg; f_equal; ring). pose proof (SIN_bound (ph - th)) as Sb.
    set (y := r * sin (ph - th)). assert (Hy : 0 < y <= r) by (unfold y; nra). replace (d + r * - sin (ph - th)) with (d - y) by (unfold y; ring). clearbody y. destruct (Rlt_le_dec d 0) as [L|L].
    + split; [auto|]. intros _. nra.
    + split; [|lra]. intros HQ. rewrite Rabs_right in B by lra. nra.
  - intros th Hth. rewrite Circ. assert (Sg : 0 < sin (th - ph)) by (apply sin_gt_0; lra). pose proof (SIN_bound (th - ph)) as Sb.
    set (y := r * sin (th - ph)). assert (Hy : 0 < y <= r) by (unfold y; nra). clearbody y. destruct (Rlt_le_dec 0 d) as [L|L].
    + split; [auto|]. intros _. nra.
    + split; [|lra]. intros HQ. rewrite Rabs_left in B by lra. nra.
Qed.

Lemma sideways_arc j : tg k = Arc j -> exists r1, 0 < r1 /\ forall r, 0 < r < r1 -> exists s1 s2 th1 th2, 0 <= s1 <= tau /\ tau <= s2 <= 1 /\ seg raw k s1 = onCircle z r th1 /\ seg raw k s2 = onCircle z r th2 /\ th1 < th2 <= th1 + 2 * PI /\
    (forall th, th1 < th < th2 -> (K (onCircle z r th) <-> d < 0)) /\ (forall th, th2 < th < th1 + 2 * PI -> (K (onCircle z r th) <-> 0 < d)).
Proof.
  intros Et. destruct (seg_arc pl d raw HC Er k j Hk Et) as (Hb & th & Hrot & Hth & Hs).
  pose proof (P_ne pl d HC j) as Np. pose proof (P_ne pl d HC (S j)) as Np'. destruct (heading _ _ Np) as (ph & E1 & E2). pose proof PI_RGT_0 as Hpi. pose proof (Rabs_pos_lt d Hd) as Da.
  pose proof (out_sign d _ _ _ th (tn pl d HC j) Hd Hrot Hb) as Sg. pose proof Hth as Hth'. apply Rabs_def2 in Hth'.
  set (c := P (S j)) in *. set (rho := Rabs d) in *. set (ph0 := if Rlt_dec 0 d then ph + PI / 2 else ph - PI / 2).
  assert (X0 : offPt 0 (P j) (P (S j)) (len pl j) = c) by apply (base_end pl d HC).
  assert (Ec : forall t, seg raw k t = onCircle c rho (ph0 + t * th)).
  { intros t. rewrite Hs. rewrite <- rot_onCircle. f_equal. unfold ph0, rho, edgePt. destruct (Rlt_dec 0 d) as [Dp|Dn].
    - rewrite Rabs_right by lra. rewrite (off_left _ _ _ _ ph) by auto. now rewrite X0.
    - rewrite Rabs_left by lra. replace (offPt d) with (offPt (- - d)) by (f_equal; ring). rewrite (off_right _ _ _ _ ph) by auto. now rewrite X0. }
  set (phi := ph0 + tau * th) in *. assert (Ez : z = onCircle c rho phi) by apply Ec.
  assert (Sth : (0 < d -> th < 0) /\ (d < 0 -> 0 < th)).
  { split; intros D.
    - destruct (Rlt_le_dec th 0); auto. assert (0 <= sin th) by (apply sin_ge_0; lra). nra.
    - destruct (Rlt_le_dec 0 th) as [|Tl]; auto. assert (sin th <= 0). { assert (0 <= sin (- th)) by (apply sin_ge_0; lra). rewrite sin_neg in H. lra. } nra. }
  assert (Tne : th <> 0) by (intros E; rewrite E, sin_0 in Sg; lra). pose proof (Rabs_pos_lt th Tne) as Ta.
  (* strictly inside the cone *)
  assert (Cone : len pl j < along (P j) c z /\ along c (P (S (S j))) z < 0).
  { pose proof (arc_coords d _ _ _ th (tn pl d HC j) Hd Hrot (tau * th)) as (_ & C1 & C2). rewrite Hs. change (edgePt pl d j (len pl j)) with (offPt d (P j) (P (S j)) (dist (P j) (P (S j)))). unfold c. rewrite C1, C2. unfold len.
    replace (th - tau * th) with ((1 - tau) * th) by ring.
    assert (Sx : forall x, 0 < x < 1 -> d * sin (x * th) < 0).
    { intros x Hx. destruct (Rlt_le_dec 0 d) as [D|D].
      - pose proof (proj1 Sth D). assert (0 < sin (x * - th)) by (apply sin_gt_0; nra). replace (x * th) with (- (x * - th)) by ring. rewrite sin_neg. nra.
      - assert (D' : d < 0) by lra. pose proof (proj2 Sth D'). assert (0 < sin (x * th)) by (apply sin_gt_0; nra). nra. }
    pose proof (Sx tau ltac:(lra)). pose proof (Sx (1 - tau) ltac:(lra)). lra. }
  destruct Cone as [Cn1 Cn2].
  destruct (near_active z (fun i => tg k = Off i \/ tg k = Arc i \/ tg k = Arc (prevN pl i)) HK active_tag) as (e & He & M).
  set (m0 := Rmin (tau * Rabs th / 2) ((1 - tau) * Rabs th / 2)). assert (Hm0 : 0 < m0). { apply Rmin_glb_lt; apply Rmult_lt_0_compat; try lra; apply Rmult_lt_0_compat; lra. }
  assert (Bm0 : m0 <= tau * Rabs th / 2 /\ m0 <= (1 - tau) * Rabs th / 2) by (split; [apply Rmin_l|apply Rmin_r]).
  assert (Hm2 : m0 < PI / 2) by nra. assert (Sm : 0 < sin m0) by (apply sin_gt_0; lra).
  set (m := Rmin (2 * rho * sin m0) (Rmin e (Rmin (along (P j) c z - len pl j) (- along c (P (S (S j))) z)))). assert (Hm : 0 < m). { repeat apply Rmin_glb_lt; try lra. apply Rmult_lt_0_compat; lra. }
  exists m. split; [auto|]. intros r Hrm.
  assert (B : r < 2 * rho * sin m0 /\ r < e /\ r < along (P j) c z - len pl j /\ r < - along c (P (S (S j))) z).
  { assert (r < m) by lra. unfold m in *. repeat match goal with H : r < Rmin ?a ?b |- _ => assert (r < a) by (eapply Rlt_le_trans; [exact H|apply Rmin_l]); assert (r < b) by (eapply Rlt_le_trans; [exact H|apply Rmin_r]); clear H end. repeat split; assumption. }
  destruct B as (B1 & B2 & B3 & B4).
  set (be := asin (r / (2 * rho))). pose proof (SIN_bound m0) as Sm1.
  assert (Hx : 0 < r / (2 * rho) < sin m0). { split; [apply Rdiv_lt_0_compat; lra|]. apply (Rmult_lt_reg_r (2 * rho)); [lra|]. unfold Rdiv. rewrite Rmult_assoc, Rinv_l by lra. lra. }
  assert (Sbe : sin be = r / (2 * rho)) by (apply sin_asin; lra). pose proof (asin_bound (r / (2 * rho))) as Bb. fold be in Bb.
  assert (Hbe : 0 < be < m0). { split; apply sin_increasing_0; rewrite ?sin_0; lra. }
  assert (Er2 : 2 * rho * sin be = r) by (rewrite Sbe; field; lra).
  assert (Circ : forall y, K (onCircle z r y) <-> 0 <= r + 2 * rho * cos (y - phi)).
  { intros y. set (z' := onCircle z r y). assert (Dz : dist z z' = r) by (apply onCircle_dist; lra).
    pose proof (along_lip (P j) c z z' Np) as L1. pose proof (along_lip c (P (S (S j))) z z' Np') as L2. rewrite Dz in L1, L2. apply Rabs_le_between' in L1. apply Rabs_le_between' in L2.
    assert (Sq : sqd z' c = d * d + r * (r + 2 * rho * cos (y - phi))). { unfold z'. rewrite Ez, sqd_circle. assert (rho * rho = d * d) by (unfold rho; rewrite <- Rabs_mult; apply Rabs_right, Rle_ge, sq_nonneg). rewrite H. ring. }
    assert (Sq' : K z' <-> d * d <= sqd z' c).
    { split.
      - intros HQ. specialize (HQ j (len pl j)). rewrite (base_end pl d HC) in HQ. apply HQ. pose proof (len_p pl d HC j). lra.
      - intros HQ. assert (Cj : clearE pl d j z').
        { intros l Hl. rewrite (sqd_along pl d HC). rewrite <- X0 in HQ. fold (base pl j (len pl j)) in HQ. rewrite (sqd_along pl d HC) in HQ. unfold c in *. set (a := along (P j) (P (S j)) z') in *. assert ((a - len pl j) * (a - len pl j) <= (a - l) * (a - l)) by nra. lra. }
        assert (Cs : clearE pl d (S j) z').
        { intros l Hl. rewrite (sqd_along pl d HC). unfold c in HQ. rewrite <- (base_start pl (S j)) in HQ. rewrite (sqd_along pl d HC) in HQ. unfold c in *. set (a := along (P (S j)) (P (S (S j))) z') in *. assert ((a - 0) * (a - 0) <= (a - l) * (a - l)) by nra. lra. }
        apply M; [lra|]. intros i Hi [T|[T|T]]; rewrite Et in T; [discriminate|injection T as <-; auto|]. injection T as T. apply (clearE_eq pl d HC i (S j)); [|auto]. rewrite T. destruct (prevN_S pl d HC i); auto. }
    rewrite Sq', Sq. split; intros HQ; nra. }
  assert (Kin : forall y, - (PI / 2) - be < y - phi < PI / 2 + be -> K (onCircle z r y)).
  { intros y Hy. assert (HQ0 := Da). apply Circ. assert (Q : cos (PI / 2 + be) <= cos (y - phi)).
    { destruct (Rle_lt_dec 0 (y - phi)); [apply cos_decr_1; lra|]. rewrite <- (cos_neg (y - phi)). apply cos_decr_1; lra. }
    rewrite (cos_plus (PI / 2) be), cos_PI2, sin_PI2 in Q. clear - Q HQ0 Er2 Da. nra. }
  assert (Kout : forall y, PI / 2 + be < y - phi < 3 * (PI / 2) - be -> ~ K (onCircle z r y)).
  { intros y Hy HQ0. apply Circ in HQ0. assert (Q : cos (y - phi) < cos (PI / 2 + be)).
    { destruct (Rle_lt_dec (y - phi) PI); [apply cos_decreasing_1; lra|]. replace (cos (y - phi)) with (cos (2 * PI - (y - phi))) by (rewrite cos_minus, cos_2PI, sin_2PI; ring). apply cos_decreasing_1; lra. }
    rewrite (cos_plus (PI / 2) be), cos_PI2, sin_PI2 in Q. clear - Q HQ0 Er2 Da. nra. }
  assert (Per : forall y, onCircle z r (y + 2 * PI) = onCircle z r y). { intros y. replace (y + 2 * PI) with (y + IZR 1 * (2 * PI)) by ring. apply onCircle_per. }
  destruct (Rlt_le_dec 0 d) as [D|D].
  - pose proof (proj1 Sth D) as Tn. rewrite (Rabs_left th) in Bm0 by lra. set (g := 2 * be / - th). assert (Eg : g * th = - (2 * be)) by (unfold g; field; lra). assert (Hg : 0 < g) by (apply Rdiv_lt_0_compat; lra).
    exists (tau - g), (tau + g), (phi + be + PI / 2 - 2 * PI), (phi - be - PI / 2).
    split; [split; [|lra]|]. { apply (Rmult_le_reg_r (- th)); [lra|]. rewrite Rmult_0_l, Rmult_minus_distr_r. replace (g * - th) with (2 * be) by lra. lra. }
    split; [split; [lra|]|]. { apply (Rmult_le_reg_r (- th)); [lra|]. rewrite Rmult_1_l, Rmult_plus_distr_r. replace (g * - th) with (2 * be) by lra. lra. }
    split; [|split; [|split; [lra|split]]].
    + rewrite <- Per. replace (phi + be + PI / 2 - 2 * PI + 2 * PI) with (phi + be + PI / 2) by ring. rewrite Ec, Ez, <- Er2, <- chord_circle. f_equal. unfold phi. rewrite Rmult_minus_distr_r, Eg. ring.
    + rewrite Ec, Ez, <- Er2, <- chord_circle'. f_equal. unfold phi. rewrite Rmult_plus_distr_r, Eg. ring.
    + intros y Hy. split; [|lra]. intros HQ. exfalso. apply (Kout (y + 2 * PI)); [lra|]. now rewrite Per.
    + intros y Hy. split; [auto|]. intros _. apply Kin. lra.
  - assert (D' : d < 0) by lra. pose proof (proj2 Sth D') as Tn. rewrite (Rabs_right th) in Bm0 by lra. set (g := 2 * be / th). assert (Eg : g * th = 2 * be) by (unfold g; field; lra). assert (Hg : 0 < g) by (apply Rdiv_lt_0_compat; lra).
    exists (tau - g), (tau + g), (phi - be - PI / 2), (phi + be + PI / 2).
    split; [split; [|lra]|]. { apply (Rmult_le_reg_r th); [lra|]. rewrite Rmult_0_l, Rmult_minus_distr_r. lra. }
    split; [split; [lra|]|]. { apply (Rmult_le_reg_r th); [lra|]. rewrite Rmult_1_l, Rmult_plus_distr_r. lra. }
    split; [|split; [|split; [lra|split]]].
    + rewrite Ec, Ez, <- Er2, <- chord_circle'. f_equal. unfold phi. rewrite Rmult_minus_distr_r, Eg. ring.
    + rewrite Ec, Ez, <- Er2, <- chord_circle. f_equal. unfold phi. rewrite Rmult_plus_distr_r, Eg. ring.
    + intros y Hy. split; [auto|]. intros _. apply Kin. lra.
    + intros y Hy. split; [|lra]. intros HQ. exfalso. apply (Kout y); [lra|]. exact HQ.
Qed.

Lemma raw_jump : exists u de, 0 < de /\ forall q', dist z q' < de -> ~ onPath raw q' ->
    (K q' -> getWindingNumber raw q' = if Rltb 0 d then u else (u - 1)%Z) /\ (~ K q' -> getWindingNumber raw q' = if Rltb 0 d then (u - 1)%Z else u).
Proof.
  assert (Sw : exists r1, 0 < r1 /\ forall r, 0 < r < r1 -> exists s1 s2 th1 th2, 0 <= s1 <= tau /\ tau <= s2 <= 1 /\ seg raw k s1 = onCircle z r th1 /\ seg raw k s2 = onCircle z r th2 /\ th1 < th2 <= th1 + 2 * PI /\
    (forall th, th1 < th < th2 -> (K (onCircle z r th) <-> d < 0)) /\ (forall th, th2 < th < th1 + 2 * PI -> (K (onCircle z r th) <-> 0 < d))).
  { destruct (tg k) as [j|j|j] eqn:Et; [now apply sideways_off with j|now apply sideways_arc with j|]. exfalso. destruct (seg_link pl d raw HC Er k j tau Hk Et) as [Es Hb]. rewrite Es in HK. exact (link_close pl d HC j tau Hd Hb ltac:(lra) HK). }
  destruct Sw as (r1 & H1 & Sw). destruct (jump raw (raw_cl pl d raw HC Er) SBr k tau K (Rltb 0 d) r1) as (u & de & Hde & J); auto; [|exists u, de; auto].
  intros r Hr. destruct (Sw r Hr) as (s1 & s2 & th1 & th2 & A1 & A2 & A3 & A4 & A5 & A6 & A7). exists s1, s2, th1, th2. repeat (split; [assumption|]). split; intros th Hth.
  - rewrite (A6 th Hth). destruct (Rltb 0 d) eqn:Eb; rbool; split; intros; try discriminate; try reflexivity; lra.
  - rewrite (A7 th Hth). destruct (Rltb 0 d) eqn:Eb; rbool; split; intros; try discriminate; try reflexivity; lra.
Qed.
End Kept.

(** next to every point through which a closed polyline runs once there are points off the polyline *)
Lemma lone_dense pl : closedPline pl -> smallBulges pl -> forall i t, (i < length (vertexes pl))%nat -> 0 < t < 1 -> pos (vert pl i 0) <> pos (vert pl i 1) -> (forall k s, (k < length (vertexes pl))%nat -> 0 <= s <= 1 -> seg pl k s = seg pl i t -> k = i) ->
  forall e, 0 < e -> exists q', dist (seg pl i t) q' < e /\ ~ onPath pl q'.
Proof.
  intros CL SB i t Hi Ht Ni Lo e He. destruct (germ_lone pl CL SB i t Hi Ht Ni Lo) as (rest & G). destruct (circle_values _ _ _ _ _ _ _ _ _ G) as (ra & Ha & Va).
  set (r := Rmin e ra / 2). assert (Hr : 0 < r /\ r < e /\ r < ra). { unfold r. pose proof (Rmin_l e ra). pose proof (Rmin_r e ra). assert (0 < Rmin e ra) by (now apply Rmin_glb_lt). lra. }
  destruct (Va r ltac:(lra)) as (u & _ & (q' & E & O & _) & _). exists q'. split; [rewrite E; lra|auto].
Qed.
