(** * C59: the results of offsetting a simple closed polyline are on the requested side of it *)
From Coq Require Import ZArith Reals Lra Lia List Bool Arith Permutation Sorted.
From Coquelicot Require Import Coquelicot.
From Verif Require Import Base Num MathUtils PlineSegment SpatialIndex Polyline Intersects Combine Offset StdLaws RGeom Spec PropsMath ArcGeom Polar PropsSegment PropsClosest PropsIntr PropsPlineIntr PropsPolyline PropsArea Turning PropsWinding PropsRegion PropsPlineIndex PropsExtents PropsCoincident PropsSlices PropsStitch PropsCombine PropsPieces PropsTrace PropsBoolOps PropsOffset PropsOffsetSlices PropsOffsetSegs PropsRawOffset PropsJoins PropsRawStructure PropsRawGeom PropsRawPoints PropsParallelTotal PropsOffsetRuns PropsOffsetCuts PropsCover PropsRunPoints PropsBalance PropsRegionArea PropsJordan PropsWindArea PropsOffsetParts PropsOffsetResult PropsOffsetConst PropsOffsetExact PropsOffsetHits PropsOffsetExample.
Import ListNotations.
Open Scope R_scope.

(** ** Headings *)
Lemma heading a b : a <> b -> exists ph, nrmX a b = - sin ph /\ nrmY a b = cos ph.
Proof.
  intros N. pose proof (nrm_unit a b N) as U. destruct (onCircle_ex (mkV 0 0) 1 (mkV (nrmY a b) (- nrmX a b)) 0) as (ph & _ & E); [lra| |].
  - unfold dist. cbn [vx vy]. rewrite <- sqrt_1. f_equal. rewrite <- U. rring.
  - injection E as E1 E2. exists ph. split; lra.
Qed.

Lemma off_left a b l r ph : nrmX a b = - sin ph -> nrmY a b = cos ph -> offPt r a b l = onCircle (offPt 0 a b l) r (ph + PI / 2).
Proof. intros E1 E2. unfold offPt, onCircle. rewrite E1, E2, cos_plus, sin_plus, cos_PI2, sin_PI2. apply vec_eq; cbn [vx vy]; rring. Qed.

Lemma off_right a b l r ph : nrmX a b = - sin ph -> nrmY a b = cos ph -> offPt (- r) a b l = onCircle (offPt 0 a b l) r (ph - PI / 2).
Proof. intros E1 E2. unfold offPt, onCircle. rewrite E1, E2, cos_minus, sin_minus, cos_PI2, sin_PI2. apply vec_eq; cbn [vx vy]; rring. Qed.

Lemma off_ahead a b l r ph : nrmX a b = - sin ph -> nrmY a b = cos ph -> offPt 0 a b (l + r) = onCircle (offPt 0 a b l) r ph.
Proof. intros E1 E2. unfold offPt, onCircle. rewrite E1, E2. apply vec_eq; cbn [vx vy]; rring. Qed.

Lemma off_behind a b l r ph : nrmX a b = - sin ph -> nrmY a b = cos ph -> offPt 0 a b (l - r) = onCircle (offPt 0 a b l) r (ph - PI).
Proof. intros E1 E2. unfold offPt, onCircle. rewrite E1, E2, cos_minus, sin_minus, cos_PI, sin_PI. apply vec_eq; cbn [vx vy]; rring. Qed.

Lemma rot_onCircle c r ph th : rot c th (onCircle c r ph) = onCircle c r (ph + th).
Proof. unfold rot, onCircle. rewrite cos_plus, sin_plus. apply vec_eq; cbn [vx vy]; rring. Qed.

(** ** The side of the clear points of the raw offset *)
Section Side.
Variables (pl : polyline) (d : R).
Hypothesis HC : clearRaw pl d.
Hypothesis Hd : d <> 0.
Hypothesis SP : simplePath pl.
Notation n := (length (vertexes pl)).
Notation P := (pt pl).
Notation E := (edgePt pl d).
Notation W := (getWindingNumber pl).

Lemma in_closed : closedPline pl.
Proof. split; [apply (cr_closed _ _ HC)|]. pose proof (cr_size _ _ HC). lia. Qed.

Lemma in_small : smallBulges pl.
Proof. apply List.Forall_forall. intros v Hv. pose proof (cr_lines _ _ HC v Hv) as Hl. unfold isLine in Hl. lra. Qed.

Lemma seg_base j t : seg pl j t = base pl j (t * len pl j).
Proof.
  assert (N2 : (2 <= n)%nat) by apply in_closed. unfold seg, base, len. replace (vert pl j 1) with (vert pl (S j) 0) by (unfold vert; f_equal; f_equal; lia).
  rewrite (segPath_line (vert pl j 0) (vert pl (S j) 0)) by apply (V_line pl d HC). change (pos (vert pl j 0)) with (P j). change (pos (vert pl (S j) 0)) with (P (S j)).
  rewrite <- (offPt_lerp 0) by apply (P_ne pl d HC). unfold lerp, shift. apply vec_eq; cbn [vx vy]; rring.
Qed.

Lemma base_len j : base pl j (len pl j) = P (S j).
Proof. apply (corner_pt _ _ _ (tn pl d HC j)). Qed.

Lemma ray x z ps r : onPath pl x -> keepsD pl d z -> z = onCircle x (Rabs d) ps -> 0 < r <= Rabs d -> W z = W (onCircle x r ps).
Proof.
  intros Ox K Ez Hr. apply C47_constant_along_paths; [apply in_small|]. exists (fun u => onCircle x (Rabs d + u * (r - Rabs d)) ps). split; [split; [|split]|].
  - rewrite Ez. f_equal. ring.
  - f_equal. ring.
  - intros u _. unfold onCircle. cbn [vx vy]. split; [apply (ex_derive_continuous (V := R_NormedModule) (fun u0 => vx x + (Rabs d + u0 * (r - Rabs d)) * cos ps))|apply (ex_derive_continuous (V := R_NormedModule) (fun u0 => vy x + (Rabs d + u0 * (r - Rabs d)) * sin ps))]; auto_derive; auto.
  - intros u Hu O. pose proof (proj1 (keepsD_spec pl d HC z) K _ O) as H. set (rho := Rabs d + u * (r - Rabs d)) in *.
    assert (Hrho : 0 < rho <= Rabs d) by (unfold rho; nra). assert (Ds : dist z (onCircle x rho ps) = Rabs d - rho).
    { rewrite dist_sqd, Ez. rewrite <- (sqrt_square (Rabs d - rho)) by lra. f_equal. unfold sqd, onCircle. cbn [vx vy]. pose proof (sin2_cos2 ps) as S. unfold Rsqr in S.
      transitivity ((Rabs d - rho) * (Rabs d - rho) * (sin ps * sin ps + cos ps * cos ps)); [rring|rewrite S; ring]. }
    lra.
Qed.

Variable c : Z.
Hypothesis Hc : forall q, onPath pl q -> nearVal pl q c.
Definition sideVal : Z := if Rlt_dec 0 d then c else (c - 1)%Z.

Lemma mid_side j l : (j < n)%nat -> 0 < l < len pl j -> keepsD pl d (E j l) -> W (E j l) = sideVal.
Proof.
  intros Hj Hl K. set (x := base pl j l). pose proof (P_ne pl d HC j) as N. destruct (heading _ _ N) as (ph & E1 & E2). pose proof PI_RGT_0 as Hpi.
  set (t := l / len pl j). assert (Ht : 0 < t < 1). { unfold t. split; [apply Rdiv_lt_0_compat; lra|]. apply (Rmult_lt_reg_r (len pl j)); [lra|]. unfold Rdiv. rewrite Rmult_assoc, Rinv_l by lra. lra. }
  assert (Ex : seg pl j t = x) by (rewrite seg_base; unfold x, t; f_equal; field; lra).
  destruct (germ_interior pl in_closed in_small SP j t Hj Ht) as (rest & G). rewrite Ex in G.
  destruct (circle_arcs _ _ _ _ _ _ _ _ _ G) as (r0 & H0 & _ & _ & V).
  assert (Ox : onPath pl x) by (apply (onPath_base pl d HC); exists j, l; repeat split; auto; lra).
  destruct (Hc x Ox) as (r1 & H1 & V1). pose proof (Rabs_pos_lt d Hd) as Da.
  set (m := Rmin (Rmin r0 r1) (Rmin (Rmin l (len pl j - l)) (Rabs d))). assert (Hm : 0 < m) by (repeat apply Rmin_glb_lt; lra).
  assert (M : m <= r0 /\ m <= r1 /\ m <= l /\ m <= len pl j - l /\ m <= Rabs d).
  { unfold m. pose proof (Rmin_l (Rmin r0 r1) (Rmin (Rmin l (len pl j - l)) (Rabs d))). pose proof (Rmin_r (Rmin r0 r1) (Rmin (Rmin l (len pl j - l)) (Rabs d))).
    pose proof (Rmin_l r0 r1). pose proof (Rmin_r r0 r1). pose proof (Rmin_l (Rmin l (len pl j - l)) (Rabs d)). pose proof (Rmin_r (Rmin l (len pl j - l)) (Rabs d)). pose proof (Rmin_l l (len pl j - l)). pose proof (Rmin_r l (len pl j - l)). lra. }
  set (r := m / 2). assert (Hr : 0 < r /\ r < r0 /\ r < r1 /\ r < l /\ r < len pl j - l /\ r < Rabs d) by (unfold r; lra).
  assert (Dv : forall y, 0 <= y <= len pl j -> 0 <= y / len pl j <= 1). { intros y Hy. split; [apply Rmult_le_pos; [lra|apply Rlt_le, Rinv_0_lt_compat; lra]|]. apply (Rmult_le_reg_r (len pl j)); [lra|]. unfold Rdiv. rewrite Rmult_assoc, Rinv_l by lra. lra. }
  assert (Q : forall y, seg pl j (y / len pl j) = base pl j y) by (intros y; rewrite seg_base; f_equal; field; lra).
  assert (Ot : forall y z, y <= z -> y / len pl j <= z / len pl j) by (intros y z Hyz; apply Rmult_le_compat_r; [apply Rlt_le, Rinv_0_lt_compat; lra|auto]).
  destruct (V r ltac:(lra) ((l - r) / len pl j) ((l + r) / len pl j) (ph - PI) ph) as (u & Tu & Va & Vb).
  - pose proof (Dv (l - r) ltac:(lra)). split; [lra|]. apply Ot. lra.
  - pose proof (Dv (l + r) ltac:(lra)). split; [|lra]. apply Ot. lra.
  - rewrite Q. apply off_behind; auto.
  - rewrite Q. apply off_ahead; auto.
  - lra.
  - assert (u = c) by (eapply twoValued_unique; [exact Tu|apply V1; lra]). subst u. unfold sideVal. destruct (Rlt_dec 0 d) as [Dp|Dn].
    + rewrite <- (Vb (ph + PI / 2)) by lra. apply ray; auto; [|lra]. rewrite Rabs_right by lra. apply off_left; auto.
    + rewrite <- (Va (ph - PI / 2)) by lra. apply ray; auto; [|lra]. rewrite Rabs_left by lra. unfold edgePt. replace d with (- - d) at 1 by ring. apply off_right; auto.
Qed.

Lemma arc_normal (a b e : vec) (th : R) : turn a b e <> 0 -> rot b th (offPt d a b (dist a b)) = offPt d b e 0 ->
  nrmX b e = cos th * nrmX a b - sin th * nrmY a b /\ nrmY b e = sin th * nrmX a b + cos th * nrmY a b.
Proof.
  intros Ht Er. pose proof (corner_pt a b e Ht) as Ep.
  pose proof (f_equal vx Ep) as Epx. pose proof (f_equal vy Ep) as Epy. pose proof (f_equal vx Er) as Ex. pose proof (f_equal vy Er) as Ey. clear Er Ep. unfold rot, offPt in *. cbn [vx vy] in *.
  set (x := nrmX a b) in *. set (y := nrmY a b) in *. set (z := nrmX b e) in *. set (w := nrmY b e) in *. set (L := dist a b) in *. clearbody x y z w L.
  replace (vx a + L * y + d * x - vx b) with (d * x) in Ex, Ey by lra. replace (vy a - L * x + d * y - vy b) with (d * y) in Ex, Ey by lra.
  split; apply (Rmult_eq_reg_l d); auto; lra.
Qed.

Lemma corner_side j th t : (j < n)%nat -> back pl d j < 0 -> rot (P (S j)) th (E j (len pl j)) = E (S j) 0 -> Rabs th < PI -> 0 <= t <= 1 ->
  keepsD pl d (rot (P (S j)) (t * th) (E j (len pl j))) -> W (rot (P (S j)) (t * th) (E j (len pl j))) = sideVal.
Proof.
  intros Hj Hb Hrot Hth Ht K. pose proof PI_RGT_0 as Hpi. set (x := P (S j)) in *. set (z := rot x (t * th) (E j (len pl j))) in *.
  pose proof (P_ne pl d HC j) as N. pose proof (P_ne pl d HC (S j)) as N'. destruct (heading _ _ N) as (ph & E1 & E2).
  destruct (arc_normal _ _ _ th (tn pl d HC j) Hrot) as [F1 F2]. rewrite E1, E2 in F1, F2.
  assert (F3 : nrmX (P (S j)) (P (S (S j))) = - sin (ph + th)) by (rewrite F1, sin_plus; ring). assert (F4 : nrmY (P (S j)) (P (S (S j))) = cos (ph + th)) by (rewrite F2, cos_plus; ring). clear F1 F2.
  pose proof (out_sign d _ _ _ th (tn pl d HC j) Hd Hrot Hb) as Sg. apply Rabs_def2 in Hth.
  pose proof (len_p pl d HC j) as L1. pose proof (len_p pl d HC (S j)) as L2. pose proof (n3 pl d HC) as H3.
  assert (Ex : seg pl j 1 = x) by (rewrite seg_base, Rmult_1_l; apply base_len).
  destruct (germ_vertex pl in_closed in_small SP j Hj) as (rest & G). rewrite Ex in G.
  destruct (circle_arcs _ _ _ _ _ _ _ _ _ G) as (r0 & H0 & _ & _ & V).
  assert (Ox : onPath pl x) by (apply (onPath_base pl d HC); exists j, (len pl j); rewrite base_len; repeat split; auto; lra).
  destruct (Hc x Ox) as (r1 & H1 & V1). pose proof (Rabs_pos_lt d Hd) as Da.
  set (m := Rmin (Rmin r0 r1) (Rmin (Rmin (len pl j) (len pl (S j))) (Rabs d))). assert (Hm : 0 < m) by (repeat apply Rmin_glb_lt; lra).
  assert (M : m <= r0 /\ m <= r1 /\ m <= len pl j /\ m <= len pl (S j) /\ m <= Rabs d).
  { unfold m. pose proof (Rmin_l (Rmin r0 r1) (Rmin (Rmin (len pl j) (len pl (S j))) (Rabs d))). pose proof (Rmin_r (Rmin r0 r1) (Rmin (Rmin (len pl j) (len pl (S j))) (Rabs d))).
    pose proof (Rmin_l r0 r1). pose proof (Rmin_r r0 r1). pose proof (Rmin_l (Rmin (len pl j) (len pl (S j))) (Rabs d)). pose proof (Rmin_r (Rmin (len pl j) (len pl (S j))) (Rabs d)). pose proof (Rmin_l (len pl j) (len pl (S j))). pose proof (Rmin_r (len pl j) (len pl (S j))). lra. }
  set (r := m / 2). assert (Hr : 0 < r /\ r < r0 /\ r < r1 /\ r < len pl j /\ r < len pl (S j) /\ r < Rabs d) by (unfold r; lra).
  assert (Dv : forall i y, 0 < len pl i -> 0 <= y <= len pl i -> 0 <= y / len pl i <= 1). { intros i y Hi Hy. split; [apply Rmult_le_pos; [lra|apply Rlt_le, Rinv_0_lt_compat; lra]|]. apply (Rmult_le_reg_r (len pl i)); [lra|]. unfold Rdiv. rewrite Rmult_assoc, Rinv_l by lra. lra. }
  assert (Q : forall i y, 0 < len pl i -> seg pl i (y / len pl i) = base pl i y) by (intros i y Hi; rewrite seg_base; f_equal; field; lra).
  assert (X0 : offPt 0 (P j) (P (S j)) (len pl j) = x) by apply base_len.
  assert (X1 : offPt 0 (P (S j)) (P (S (S j))) 0 = x). { unfold x, offPt. apply vec_eq; cbn [vx vy]; rring. }
  destruct (V r ltac:(lra) ((len pl j - r) / len pl j) ((0 + r) / len pl (S j)) (ph - PI) (ph + th)) as (u & Tu & Va & Vb).
  - apply Dv; lra.
  - apply Dv; lra.
  - rewrite Q by auto. unfold base. rewrite (off_behind _ _ _ _ ph) by auto. now rewrite X0.
  - rewrite (seg_mod pl ltac:(lia)). rewrite Nat.add_1_r. rewrite Q by auto. unfold base. rewrite (off_ahead _ _ _ _ (ph + th)) by auto. now rewrite X1.
  - lra.
  - assert (u = c) by (eapply twoValued_unique; [exact Tu|apply V1; lra]). subst u. unfold sideVal. destruct (Rlt_dec 0 d) as [Dp|Dn].
    + assert (Tn : th < 0). { destruct (Rlt_le_dec th 0); auto. assert (0 <= sin th) by (apply sin_ge_0; lra). nra. }
      assert (0 <= (1 - t) * - th) by (apply Rmult_le_pos; lra). assert (0 <= t * - th) by (apply Rmult_le_pos; lra).
      rewrite <- (Vb (ph + PI / 2 + t * th)) by lra. apply ray; auto; [|lra]. rewrite Rabs_right by lra. unfold z, edgePt. rewrite (off_left _ _ _ _ ph) by auto. rewrite X0. apply rot_onCircle.
    + assert (Tn : 0 < th). { destruct (Rlt_le_dec 0 th) as [|Tl]; auto. assert (sin th <= 0). { assert (0 <= sin (- th)) by (apply sin_ge_0; lra). rewrite sin_neg in H. lra. } assert (d < 0) by lra. nra. }
      assert (0 <= (1 - t) * th) by (apply Rmult_le_pos; lra). assert (0 <= t * th) by (apply Rmult_le_pos; lra).
      rewrite <- (Va (ph - PI / 2 + t * th)) by lra. apply ray; auto; [|lra]. rewrite Rabs_left by lra. unfold z, edgePt. replace (offPt d) with (offPt (- - d)) by (f_equal; ring). rewrite (off_right _ _ _ _ ph) by auto. rewrite X0. apply rot_onCircle.
Qed.

Lemma tag_lt T : In T (rawTags pl d) -> match T with Off j | Arc j | Link j => (j < n)%nat end.
Proof.
  intros H. pose proof (n3 pl d HC) as H3. unfold rawTags in H. destruct H as [<-|H]; [lia|]. apply in_app_or in H. destruct H as [H|H].
  - apply in_flat_map in H. destruct H as (i & Hi & H). apply in_seq in Hi. unfold cornerTags in H. destruct (met pl d i); [|destruct (Rltb (back pl d i) 0)]; cbn [In] in H; destruct H as [<-|H]; try lia; try destruct H as [<-|[]]; try lia; contradiction.
  - unfold cornerTags in H. destruct (met pl d (n - 1)); [|destruct (Rltb (back pl d (n - 1)) 0)]; cbn [removelast In] in H; try contradiction; destruct H as [<-|[]]; lia.
Qed.

Lemma back_ne j : back pl d j <> 0.
Proof.
  intros B. pose proof (setback_eq d _ _ _ (tn pl d HC j)) as Sb. change (setback d (P j) (P (S j)) (P (S (S j)))) with (back pl d j) in Sb. rewrite B in Sb.
  assert (Hs : sinC (P j) (P (S j)) (P (S (S j))) = 0) by (apply (Rmult_eq_reg_l d); auto; lra). apply (tn pl d HC j).
  pose proof (len_p pl d HC j) as L1. pose proof (len_p pl d HC (S j)) as L2. unfold len in L1, L2.
  unfold sinC in Hs. apply (Rmult_eq_compat_r (dist (P j) (P (S j)) * dist (P (S j)) (P (S (S j))))) in Hs. unfold Rdiv in Hs. rewrite Rmult_assoc, Rinv_l in Hs by (apply Rgt_not_eq, Rmult_lt_0_compat; auto). lra.
Qed.

Variable raw : polyline.
Hypothesis Er : createRawOffsetPline pl d = Ok raw.

(** the two ends of the arc at an outside corner *)
Lemma arc_ends j : (j < n)%nat -> back pl d j < 0 -> (keepsD pl d (E j (len pl j)) -> W (E j (len pl j)) = sideVal) /\ (keepsD pl d (E (S j) 0) -> W (E (S j) 0) = sideVal).
Proof.
  intros Hj Hb. destruct (tag_index pl d raw HC Er _ (arc_in pl d HC j Hj Hb)) as (k & Hk & Et). destruct (seg_arc pl d raw HC Er k j Hk Et) as (_ & th & Hr & Hth & _).
  assert (R0 : rot (P (S j)) (0 * th) (E j (len pl j)) = E j (len pl j)). { rewrite Rmult_0_l. unfold rot. rewrite cos_0, sin_0. apply vec_eq; cbn [vx vy]; rring. }
  assert (R1 : rot (P (S j)) (1 * th) (E j (len pl j)) = E (S j) 0) by (rewrite Rmult_1_l; exact Hr). split; intros K.
  - rewrite <- R0 in K |- *. apply corner_side; auto. lra.
  - rewrite <- R1 in K |- *. apply corner_side; auto. lra.
Qed.

Lemma off_side j l : (j < n)%nat -> 0 <= l <= len pl j -> keepsD pl d (E j l) -> W (E j l) = sideVal.
Proof.
  intros Hj Hl K. pose proof (n3 pl d HC) as H3. destruct (Req_dec l 0) as [->|N0]; [|destruct (Req_dec l (len pl j)) as [->|N1]; [|apply mid_side; auto; lra]].
  - set (i := prevN pl j). assert (Hi : (i < n)%nat) by (apply (prevN_lt pl d HC); auto). destruct (prevN_P pl d HC j) as [P1 P2]. fold i in P1, P2.
    assert (Ei : E j 0 = E (S i) 0) by (unfold edgePt; now rewrite P1, P2). rewrite Ei in K |- *. destruct (Rtotal_order (back pl d i) 0) as [B|[B|B]].
    + now apply (arc_ends i Hi B).
    + now apply back_ne in B.
    + exfalso. apply (prev_close pl d HC i 0); [lra|apply Rlt_le, (len_p pl d HC)|apply K].
  - destruct (Rtotal_order (back pl d j) 0) as [B|[B|B]].
    + now apply (arc_ends j Hj B).
    + now apply back_ne in B.
    + exfalso. apply (next_close pl d HC j 0); [lra|apply Rlt_le, (len_p pl d HC)|]. rewrite Rminus_0_r. apply K.
Qed.

(** every point of the raw offset that keeps its distance from the input is on the side the offset asks for *)
Lemma raw_side z : onPath raw z -> keepsD pl d z -> W z = sideVal.
Proof.
  intros Oz K. pose proof (raw3 pl d raw HC Er) as H3. destruct (in_onSeg_path raw z (proj1 (raw_cl pl d raw HC Er)) ltac:(lia) Oz) as (k & Hk & O). apply onSeg_path in O. destruct O as (t & Ht & ->). change (segPath (vert raw k 0) (vert raw k 1) t) with (seg raw k t) in *.
  assert (Ti : In (tagAt pl d k) (rawTags pl d)) by (apply nth_In; rewrite <- (raw_len pl d raw HC Er); auto). apply tag_lt in Ti.
  destruct (tagAt pl d k) as [j|j|j] eqn:Et.
  - pose proof (off_range pl d raw HC Er k j t Hk Et Ht K) as Hr. pose proof (seg_off pl d raw HC Er k j t Hk Et) as Es.
    destruct (trim_bound pl d HC j) as [B1 _]. destruct (trim_bound pl d HC (before pl j)) as [[B2 _] B3]. rewrite (before_len pl d HC) in B3.
    match type of Es with _ = edgePt _ _ _ ?l0 => set (l := l0) in *; assert (Hl : 0 <= l <= len pl j) by (unfold l; nra) end.
    rewrite Es in K |- *. now apply off_side.
  - destruct (seg_arc pl d raw HC Er k j Hk Et) as (Hb & th & Hr & Hth & Hs). rewrite Hs in K |- *. now apply corner_side.
  - exfalso. destruct (seg_link pl d raw HC Er k j t Hk Et) as [Es Hb]. rewrite Es in K. exact (link_close pl d HC j t Hd Hb Ht K).
Qed.
End Side.

(** ** Specification *)
(** the side of the input to which the offset moves: for d > 0 the left side, which is the inside exactly when the input is counter clockwise (has positive area) *)
Definition onSide (pl : polyline) (d : R) (q : vec) : Prop := if Rlt_dec 0 (d * getArea pl) then insideOf pl q else outsideOf pl q.

Lemma left_value pl c : closedPline pl -> smallBulges pl -> simplePath pl -> (forall q, onPath pl q -> nearVal pl q c) -> c = if Rlt_dec (getArea pl) 0 then 0%Z else 1%Z.
Proof.
  intros CL SB SP Hc. destruct (C54_simple_winding pl CL SB SP) as (_ & HW & _).
  assert (Ex : exists x, onPath pl x). { destruct (vertexes pl) as [|v0 vs] eqn:Ev; [destruct CL as [_ H2]; rewrite Ev in H2; cbn in H2; lia|]. exists (pos v0). apply (first_onPath pl v0 vs Ev). apply CL. }
  destruct Ex as (x & Ox). destruct (Hc x Ox) as (r0 & H0 & V). destruct (V (r0 / 2) ltac:(lra)) as (_ & (q1 & _ & O1 & W1) & (q2 & _ & O2 & W2)).
  pose proof (HW q1 O1) as A1. pose proof (HW q2 O2) as A2. destruct (Rlt_dec (getArea pl) 0); lia.
Qed.

Section Sides.
Variables (pl : polyline) (d : R) (raw : polyline).
Hypothesis HC : clearRaw pl d.
Hypothesis Hd : d <> 0.
Hypothesis SP : simplePath pl.
Hypothesis Er : createRawOffsetPline pl d = Ok raw.

Lemma clear_off z : clearBy pl (Rabs d) z -> ~ onPath pl z.
Proof. intros H O. specialize (H z O). rewrite dist_self in H. pose proof (Rabs_pos_lt d Hd). lra. Qed.

Lemma raw_onSide z : onPath raw z -> clearBy pl (Rabs d) z -> onSide pl d z.
Proof.
  intros Oz Cz. pose proof (clear_off z Cz) as Nz. apply (clearBy_K pl d HC) in Cz.
  pose proof (in_closed pl d HC) as CL. pose proof (in_small pl d HC) as SB. destruct (path_nearVal pl CL SB SP) as (c & Hc).
  pose proof (raw_side pl d HC Hd SP c Hc raw Er z Oz Cz) as Ws. pose proof (left_value pl c CL SB SP Hc) as Ec. destruct (C54_simple_winding pl CL SB SP) as (NA & _).
  unfold onSide, insideOf, outsideOf, sideVal in *. subst c. destruct (Rlt_dec 0 (d * getArea pl)) as [H|H].
  - split; [auto|]. rewrite Ws. destruct (Rlt_dec 0 d) as [D|D], (Rlt_dec (getArea pl) 0) as [A|A]; try discriminate; [assert (0 < d * - getArea pl) by (apply Rmult_lt_0_compat; lra); lra|assert (0 < - d * getArea pl) by (apply Rmult_lt_0_compat; lra); lra].
  - split; [auto|]. rewrite Ws. destruct (Rlt_dec 0 d) as [D|D], (Rlt_dec (getArea pl) 0) as [A|A]; try reflexivity; exfalso; apply H; [apply Rmult_lt_0_compat; lra|]. assert (0 < - d * - getArea pl) by (apply Rmult_lt_0_compat; lra). lra.
Qed.
End Sides.

Lemma sides_differ pl d z : closedPline pl -> smallBulges pl -> simplePath pl -> d <> 0 -> onSide pl d z -> onSide pl (- d) z -> False.
Proof.
  intros CL SB SP Hd. destruct (C54_simple_winding pl CL SB SP) as (NA & _). unfold onSide, insideOf, outsideOf.
  assert (N : d * getArea pl <> 0) by (apply Rmult_integral_contrapositive; auto).
  destruct (Rlt_dec 0 (d * getArea pl)), (Rlt_dec 0 (- d * getArea pl)); try lra; tauto.
Qed.

(** ** C59 *)
Section Result.
Context {SL : StdLib} {SLaws : StdLaws SL}.

(** the raw offsets of a simple polyline to its two sides have no point in common that keeps its distance from it *)
Lemma C59_sides_apart pl d raw dual : clearRaw pl d -> clearRaw pl (- d) -> simplePath pl -> d <> 0 -> createRawOffsetPline pl d = Ok raw -> createRawOffsetPline pl (- d) = Ok dual ->
  forall q, clearBy pl (Rabs d) q -> ~ common raw dual q.
Proof.
  intros HC HC' SP Hd Er Ed q Cq [O1 O2]. apply (sides_differ pl d q (in_closed pl d HC) (in_small pl d HC) SP Hd).
  - now apply (raw_onSide pl d raw).
  - apply (raw_onSide pl (- d) dual); auto; [lra|now rewrite Rabs_Ropp].
Qed.

(** Offsetting a closed polyline of straight segments that does not touch itself by d: every point of every result is at distance exactly |d| from the input
    and on the side to which the offset moves; and every point on that side at distance |d| from the input is on a result, apart from the cut points and from tiny loops. *)
Theorem C59_offset_side pl d h raw dual : clearRaw pl d -> clearRaw pl (- d) -> simplePath pl -> indexable pl -> 1 / 10000 <= Rabs d ->
  (48 * Z.of_nat (length (vertexes pl)) * Z.of_nat (length (vertexes pl)) <= 2 ^ 24)%Z ->
  createRawOffsetPline pl d = Ok raw -> createRawOffsetPline pl (- d) = Ok dual -> spread raw -> offsetPosition h raw dual ->
  decisive pl raw d (cutPoint h raw dual) ->
  exists rs, parallelOffset pl d h = Ok rs /\
    (forall r q, In r rs -> onPath r q -> atDistance pl (Rabs d) q /\ onSide pl d q) /\
    (noFalseHits pl raw d -> forall q, atDistance pl (Rabs d) q -> onSide pl d q -> ~ cutPoint h raw dual q ->
      (exists r, In r rs /\ onPath r q) \/ (h = false /\ exists l, part raw (cutPoint h raw dual) l /\ tinyLoop l /\ onPath (mkPline false l) q)).
Proof.
  intros HC HC' SP Hix Hd Hn Er Ed Hspr OP Dec. assert (Hd0 : d <> 0) by (intros ->; rewrite Rabs_R0 in Hd; lra).
  destruct (C58_offset_exact pl d h raw dual) as (rs & E1 & A & B); auto; [right; now apply (C59_sides_apart pl d)|].
  exists rs. split; [auto|].
  assert (OnRaw : forall q, atDistance pl (Rabs d) q -> onSide pl d q -> onPath raw q).
  { intros q Aq Sq. destruct (C58_curve_on_raw pl d raw dual q) as [O|O]; auto. exfalso. apply (sides_differ pl d q (in_closed pl d HC) (in_small pl d HC) SP Hd0); auto.
    apply (raw_onSide pl (- d) dual); auto; [lra|rewrite Rabs_Ropp; apply Aq]. }
  split.
  - intros r q Hr Oq. split; [now apply (A r q)|]. apply (raw_onSide pl d raw); auto; [|apply (A r q Hr Oq)].
    assert (Hok : okPath pl). { intros v1 v2 Hin. left. exact (segs_line pl d v1 v2 HC Hin). }
    destruct (C57_on_raw pl d h raw dual) as (rs' & E2 & OR); auto; [apply HC|apply (in_small pl d HC)|]. assert (rs' = rs) by congruence. subst rs'. now apply (OR r).
  - intros NF q Aq Sq Nq. apply B; auto. apply Aq.
Qed.
End Result.

(** the chamfered square of PropsOffsetExample meets the hypotheses; its offset by 15 is to the inside *)
Lemma cham_seg k t : (k < 5)%nat -> seg chamfer k t = lerp (pt chamfer k) (pt chamfer (S k)) t.
Proof. intros Hk. unfold seg. rewrite (segPath_line (vert chamfer k 0) (vert chamfer k 1)) by apply (V_line chamfer 15 cham_in). unfold pt. replace (vert chamfer (S k) 0) with (vert chamfer k 1) by (unfold vert; now rewrite Nat.add_0_r, Nat.add_1_r). reflexivity. Qed.

Lemma cham_simple : simplePath chamfer.
Proof.
  intros i j s t Hi Hj Hs Ht E. change (length (vertexes chamfer)) with 5%nat in *. rewrite !cham_seg in E by auto.
  five i Hi; five j Hj; cbn [chamfer pt vert at_ nth vertexes length Nat.modulo Nat.divmod Nat.add Nat.sub fst snd pos mkVertex lerp] in E; unfold pt, vert, lerp in E; cbn in E; injection E; intros E1 E2; first [split; [reflexivity|lra]|exfalso; lra].
Qed.

Example C59_chamfer : exists raw dual, createRawOffsetPline chamfer 15 = Ok raw /\ createRawOffsetPline chamfer (- (15)) = Ok dual /\
  clearRaw chamfer 15 /\ clearRaw chamfer (- (15)) /\ simplePath chamfer /\ indexable chamfer /\ 1 / 10000 <= Rabs 15 /\ (48 * Z.of_nat (length (vertexes chamfer)) * Z.of_nat (length (vertexes chamfer)) <= 2 ^ 24)%Z /\
  spread raw /\ offsetPosition false raw dual /\ decisive chamfer raw 15 (cutPoint false raw dual) /\ noFalseHits chamfer raw 15 /\ 0 < 15 * getArea chamfer.
Proof.
  destruct C58_chamfer as (raw & dual & H1 & H2 & H3 & H4 & H5 & H6 & H7 & H8 & H9 & H10 & _ & H11 & _). exists raw, dual. pose proof cham_simple. repeat (split; [assumption|]).
  assert (Ar : getArea chamfer = 9976); [|lra].
  rewrite getArea_sum by reflexivity. unfold trace, pathSegs, chamfer. cbn [vertexes isClosed openSegs app last map].
  rewrite !sumR_cons, sumR_nil. unfold seg3. cbn [fst snd pos bulge mkVertex]. rewrite !areaOf_line by (rewrite Rabs_R0; lra). cbn [vx vy]. rcbn. field.
Qed.
