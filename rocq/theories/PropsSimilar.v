(** * C70: scaling and translating a polyline acts on the answers as the similarity *)
From Coq Require Import ZArith Reals Lra Lia List Bool Arith Permutation.
From Verif Require Import Base Num MathUtils PlineSegment SpatialIndex Polyline RGeom Spec PropsMath ArcGeom PropsPolyline PropsArea PropsRegion PropsPlineClosest.
Import ListNotations.
Open Scope R_scope.

(** ** Specification *)
(** the point [q] scaled about the origin and then translated *)
Definition image (s : R) (v q : vec) : vec := mkV (vx v + vx q * s) (vy v + vy q * s).
(** the polyline the library makes with the same two steps *)
Definition imageOf (s : R) (v : vec) (pl : polyline) : polyline := translatePolyline (scalePolyline pl s) v.

Section Similar.
Variables (s : R) (v : vec).
Local Notation im := (image s v).
Definition imv (w : vertex) : vertex := mkVtx (im (pos w)) (bulge w).
Local Notation imP := (imageOf s v).

Lemma imP_map b l : imP (mkPline b l) = mkPline b (map imv l).
Proof. unfold imageOf, translatePolyline, scalePolyline. cbn [isClosed vertexes]. rewrite map_map. reflexivity. Qed.
Lemma imP_closed pl : isClosed (imP pl) = isClosed pl. Proof. reflexivity. Qed.
Lemma imP_vertexes pl : vertexes (imP pl) = map imv (vertexes pl). Proof. destruct pl. now rewrite imP_map. Qed.
Lemma imP_size pl : size (imP pl) = size pl. Proof. unfold size. now rewrite imP_vertexes, map_length. Qed.

Lemma imP_pathSegs pl : pathSegs (imP pl) = map (fun e => (imv (fst e), imv (snd e))) (pathSegs pl).
Proof. destruct pl as [b l]. rewrite imP_map. apply pathSegs_map. Qed.
Lemma imP_vsegs pl : vsegs (imP pl) = map (fun e => (imv (fst e), imv (snd e))) (vsegs pl).
Proof.
  rewrite !vsegs_cases, imP_vertexes, imP_closed. destruct (vertexes pl) as [|v0 [|v1 vs]]; [reflexivity|reflexivity|].
  change (map imv (v0 :: v1 :: vs)) with (imv v0 :: imv v1 :: map imv vs). cbv iota. change (imv v1 :: map imv vs) with (map imv (v1 :: vs)). rewrite openSegs_map, map_app. f_equal.
  destruct (isClosed pl); [|reflexivity]. cbn [map fst snd]. f_equal. f_equal. apply (last_map' imv (v1 :: vs) v0).
Qed.

(** ** points *)
Lemma rot_image c th p : im (rot c th p) = rot (im c) th (im p).
Proof. unfold image, rot. apply vec_eq; rcbn; ring. Qed.
Lemma lerp_image p q t : im (lerp p q t) = lerp (im p) (im q) t.
Proof. unfold image, lerp. apply vec_eq; rcbn; ring. Qed.
Lemma image_inj (p q : vec) : s <> 0 -> im p = im q -> p = q.
Proof. intros Hs E. unfold image in E. injection E as E1 E2. rcbn. apply vec_eq; rcbn; apply Rmult_eq_reg_r with s; auto; lra. Qed.
Lemma image_onto (q : vec) : s <> 0 -> exists p, q = im p.
Proof. intros Hs. exists (mkV ((vx q - vx v) / s) ((vy q - vy v) / s)). unfold image. apply vec_eq; rcbn; apply Rminus_diag_uniq; field; auto. Qed.

Lemma segPoint_image v1 v2 t q : s <> 0 -> segPoint (imv v1) (imv v2) t (im q) <-> segPoint v1 v2 t q.
Proof.
  intros Hs. unfold segPoint, isLine, arcCentre. cbn [imv bulge pos]. rewrite <- lerp_image. split; intros [[L E]|[L (c & Ec & E)]].
  - left. split; [exact L|]. now apply image_inj.
  - right. split; [exact L|]. destruct (image_onto c Hs) as (c' & ->). exists c'. rewrite <- rot_image in Ec. apply image_inj in Ec; auto. rewrite <- rot_image in E. apply image_inj in E; auto.
  - left. split; [exact L|]. now rewrite E.
  - right. split; [exact L|]. exists (im c). rewrite <- !rot_image, Ec, E. auto.
Qed.

Theorem C70_path pl q : s <> 0 -> onPath (imP pl) (im q) <-> onPath pl q.
Proof.
  intros Hs. unfold onPath. rewrite imP_pathSegs. split.
  - intros (a & b & Hin & t & Ht & Hq). apply in_map_iff in Hin. destruct Hin as ([v1 v2] & E & Hin). cbn [fst snd] in E. injection E as <- <-. exists v1, v2. split; [exact Hin|]. exists t. split; [exact Ht|]. now apply (segPoint_image v1 v2 t q Hs).
  - intros (v1 & v2 & Hin & t & Ht & Hq). exists (imv v1), (imv v2). split; [apply in_map_iff; exists (v1, v2); auto|]. exists t. split; [exact Ht|]. now apply (segPoint_image v1 v2 t q Hs).
Qed.

Theorem C70_area pl : getArea (imP pl) = s * s * getArea pl.
Proof. unfold imageOf. now rewrite C23_translatePolyline, C23_scalePolyline. Qed.

(** ** comparisons *)
Lemma Rltb_eq a b c d : (a < b <-> c < d) -> Rltb a b = Rltb c d.
Proof. intros H. destruct (Rltb a b) eqn:E1, (Rltb c d) eqn:E2; auto; [apply Rltb_spec in E1; apply Rltb_false in E2; exfalso; apply Rlt_not_le with (1 := proj1 H E1); exact E2|apply Rltb_spec in E2; apply Rltb_false in E1; exfalso; apply Rlt_not_le with (1 := proj2 H E2); exact E1]. Qed.
Lemma Rleb_eq a b c d : (a <= b <-> c <= d) -> Rleb a b = Rleb c d.
Proof. intros H. destruct (Rleb a b) eqn:E1, (Rleb c d) eqn:E2; auto; [apply Rleb_spec in E1; apply Rleb_false in E2; exfalso; apply Rlt_not_le with (1 := E2); tauto|apply Rleb_spec in E2; apply Rleb_false in E1; exfalso; apply Rlt_not_le with (1 := E1); tauto]. Qed.

Hypothesis Hs : 0 < s.
Lemma scale_lt k x y : k + x * s < k + y * s <-> x < y.
Proof. split; intros H; [apply Rmult_lt_reg_r with s; lra|apply Rmult_lt_compat_r with (r := s) in H; lra]. Qed.
Lemma scale_le k x y : k + x * s <= k + y * s <-> x <= y.
Proof. split; intros H; [apply Rmult_le_reg_r with s; lra|apply Rmult_le_compat_r with (r := s) in H; lra]. Qed.
Lemma Rltb_im k x y : Rltb (k + x * s) (k + y * s) = Rltb x y. Proof. apply Rltb_eq, scale_lt. Qed.
Lemma Rleb_im k x y : Rleb (k + x * s) (k + y * s) = Rleb x y. Proof. apply Rleb_eq, scale_le. Qed.
Lemma ss_pos : 0 < s * s. Proof. now apply Rmult_lt_0_compat. Qed.

Lemma leftExpr_im p0 p1 p : leftExpr (im p0) (im p1) (im p) = s * s * leftExpr p0 p1 p.
Proof. unfold leftExpr, image. rcbn. rring. Qed.
Lemma isLeft_im p0 p1 p : isLeft (im p0) (im p1) (im p) = isLeft p0 p1 p.
Proof. unfold isLeft. rewrite leftExpr_im. rcbn. pose proof ss_pos. apply Rltb_eq. split; intros; nra. Qed.
Lemma isLeftOrEqual_im p0 p1 p : isLeftOrEqual (im p0) (im p1) (im p) = isLeftOrEqual p0 p1 p.
Proof. unfold isLeftOrEqual. rewrite leftExpr_im. rcbn. pose proof ss_pos. apply Rleb_eq. split; intros; nra. Qed.
Lemma distSquared_im p q : distSquared (im p) (im q) = s * s * distSquared p q.
Proof. unfold distSquared, dot, vsub, image. rcbn. rring. Qed.
Lemma vsub_im p q : vsub (im p) (im q) = mkV (s * vx (vsub p q)) (s * vy (vsub p q)).
Proof. unfold vsub, image. apply vec_eq; rcbn; rring. Qed.
Lemma vlength_s (w : vec) : vlength (mkV (s * vx w) (s * vy w)) = s * vlength w.
Proof.
  unfold vlength, dot. rcbn. replace (s * vx w * (s * vx w) + s * vy w * (s * vy w)) with (s * s * (vx w * vx w + vy w * vy w)) by ring.
  rewrite sqrt_mult_alt by (pose proof ss_pos; lra). rewrite sqrt_square by lra. reflexivity.
Qed.

Lemma arc_im v1 v2 : arcRadiusAndCenter (imv v1) (imv v2) = mkArc (s * radius (arcRadiusAndCenter v1 v2)) (im (center (arcRadiusAndCenter v1 v2))).
Proof.
  unfold arcRadiusAndCenter. cbn [imv pos bulge]. rewrite vsub_im, vlength_s. set (w := vsub (pos v2) (pos v1)). set (d := vlength w).
  assert (D : d = 0 -> vx w = 0 /\ vy w = 0).
  { unfold d, vlength, dot. rcbn. intros E. apply sqrt_eq_0 in E; [|nra]. split; nra. }
  assert (X : forall m u, (d = 0 -> u = 0) -> - (s * m) * (s * u) / (s * d) = s * (- m * u / d)).
  { intros m u Hu. destruct (Req_dec d 0) as [E|E]; [rewrite (Hu E); unfold Rdiv; ring|field; split; lra]. }
  assert (Y : forall m u, (d = 0 -> u = 0) -> (s * m) * (s * u) / (s * d) = s * (m * u / d)).
  { intros m u Hu. destruct (Req_dec d 0) as [E|E]; [rewrite (Hu E); unfold Rdiv; ring|field; split; lra]. }
  unfold bulgeIsNeg. cbn [imv bulge]. cbv zeta. cbn [vx vy].
  set (b := tabs (bulge v1)). set (r := tdiv (tmul d (tadd (tmul b b) t1)) (tmul t4 b)).
  assert (Er : tdiv (tmul (s * d) (tadd (tmul b b) t1)) (tmul t4 b) = s * r) by (unfold r; rcbn; unfold Rdiv; ring). rewrite Er.
  set (sg := tdiv (tmul b d) t2). assert (Es : tdiv (tmul b (s * d)) t2 = s * sg) by (unfold sg; rcbn; unfold Rdiv; ring). rewrite Es.
  assert (Em : tsub (s * r) (s * sg) = s * (tsub r sg)) by (rcbn; ring). rewrite Em. set (m := tsub r sg).
  clearbody b r sg m. clear Er Es Em. rcbn. rewrite (X m (vy w) (fun E => proj2 (D E))), (Y m (vx w) (fun E => proj1 (D E))).
  generalize (- m * vy w / d) (m * vx w / d). intros k1 k2.
  destruct (Rltb (bulge v1) 0); cbn [radius center]; (f_equal; unfold imv, image, px, py; cbn [pos]; apply vec_eq; rcbn; first [rring|rfield]).
Qed.

(** ** winding numbers *)
Lemma fold_map {A B C} (g : A -> C -> A) (f : B -> C) l : forall a, fold_left g (map f l) a = fold_left (fun a x => g a (f x)) l a.
Proof. induction l as [|x l IH]; intros a; cbn [fold_left map]; auto. Qed.
Lemma fold_ext {A B} (g h : A -> B -> A) l : (forall a x, g a x = h a x) -> forall a, fold_left g l a = fold_left h l a.
Proof. intros E. induction l as [|x l IH]; intros a; cbn [fold_left]; auto. rewrite E. apply IH. Qed.

Lemma lineWinding_im v1 v2 p : lineWinding (imv v1) (imv v2) (im p) = lineWinding v1 v2 p.
Proof. unfold lineWinding, py. cbn [imv pos]. rewrite isLeft_im. unfold image. cbn [vx vy]. cbn [tleb tltb ROps]. rewrite !Rltb_im, !Rleb_im. reflexivity. Qed.
Lemma inCircle_im v1 v2 p : distToArcCenterLessThanRadius (imv v1) (imv v2) (im p) = distToArcCenterLessThanRadius v1 v2 p.
Proof.
  unfold distToArcCenterLessThanRadius. rewrite arc_im. cbv zeta. cbn [radius center]. rewrite distSquared_im. generalize (radius (arcRadiusAndCenter v1 v2)) (distSquared (center (arcRadiusAndCenter v1 v2)) p). intros r d2.
  cbn [tltb tmul ROps]. apply Rltb_eq. rcbn. pose proof ss_pos. split; intros; nra.
Qed.
Lemma arcWinding_im v1 v2 p : arcWinding (imv v1) (imv v2) (im p) = arcWinding v1 v2 p.
Proof.
  unfold arcWinding, px, py. rewrite inCircle_im. cbn [imv pos]. rewrite isLeft_im, isLeftOrEqual_im. unfold image. cbn [vx vy]. cbn [tleb tltb ROps]. rewrite !Rltb_im, !Rleb_im. reflexivity.
Qed.

Theorem C70_winding pl q : getWindingNumber (imP pl) (im q) = getWindingNumber pl q.
Proof.
  unfold getWindingNumber. rewrite imP_closed, imP_size. destruct (_ || _)%bool; [reflexivity|].
  set (g := fun (p : vec) (w : Z) (v1 v2 : vertex) => (w + (if bulgeIsZero v1 then lineWinding v1 v2 p else arcWinding v1 v2 p))%Z).
  change (visitSegIndices (imP pl) (fun w i j => (true, g (im q) w (at_ (imP pl) i) (at_ (imP pl) j))) 0%Z = visitSegIndices pl (fun w i j => (true, g q w (at_ pl i) (at_ pl j))) 0%Z).
  rewrite !visit_fold, imP_vsegs, fold_map. apply fold_ext. intros w [v1 v2]. cbn [fst snd]. unfold g. rewrite lineWinding_im, arcWinding_im. reflexivity.
Qed.

(** ** angles and extents *)
Lemma Ratan2_s y x : Ratan2 (s * y) (s * x) = Ratan2 y x.
Proof.
  assert (P : 0 < s * x <-> 0 < x) by (split; intros; nra). assert (N : s * x < 0 <-> x < 0) by (split; intros; nra).
  assert (P' : 0 < s * y <-> 0 < y) by (split; intros; nra). assert (N' : s * y < 0 <-> y < 0) by (split; intros; nra).
  assert (Q : x <> 0 -> s * y / (s * x) = y / x) by (intros; field; lra).
  unfold Ratan2. destruct (Rlt_dec 0 (s * x)), (Rlt_dec 0 x); try tauto; [now rewrite Q by lra|].
  destruct (Rlt_dec (s * x) 0), (Rlt_dec x 0); try tauto.
  - rewrite Q by lra. destruct (Rle_dec 0 (s * y)), (Rle_dec 0 y); auto; exfalso; lra.
  - destruct (Rlt_dec 0 (s * y)), (Rlt_dec 0 y); try tauto. destruct (Rlt_dec (s * y) 0), (Rlt_dec y 0); tauto.
Qed.
Lemma angle_im p q : angle (im p) (im q) = angle p q.
Proof.
  unfold angle, image. rcbn. replace (vy v + vy q * s - (vy v + vy p * s)) with (s * (vy q - vy p)) by ring. replace (vx v + vx q * s - (vx v + vx p * s)) with (s * (vx q - vx p)) by ring. apply Ratan2_s.
Qed.

Definition imBox (b : aabb) : aabb := mkAABB (vx v + xMin b * s) (vy v + yMin b * s) (vx v + xMax b * s) (vy v + yMax b * s).
Lemma pick (c c' : bool) (k x y x' y' : R) : c' = c -> x' = k + x * s -> y' = k + y * s -> (if c' then x' else y') = k + (if c then x else y) * s.
Proof. intros -> -> ->. now destruct c. Qed.
Lemma tmin_im k x y : tmin (k + x * s) (k + y * s) = k + tmin x y * s.
Proof. unfold tmin. apply pick; auto. apply Rltb_im. Qed.
Lemma tmax_im k x y : tmax (k + x * s) (k + y * s) = k + tmax x y * s.
Proof. unfold tmax. apply pick; auto. apply Rltb_im. Qed.

Lemma extents_im pl i j r : (i < size pl)%nat -> (j < size pl)%nat -> extents_step (imP pl) (imBox r) i j = (true, imBox (snd (extents_step pl r i j))).
Proof.
  intros Hi Hj. assert (A : forall k, (k < size pl)%nat -> at_ (imP pl) k = imv (at_ pl k)).
  { intros k Hk. unfold at_. rewrite imP_vertexes. rewrite nth_indep with (d' := imv vdflt) by (rewrite map_length; exact Hk). apply map_nth. }
  unfold extents_step. rewrite (A i Hi), (A j Hj). cbv zeta. rewrite arc_im. change (bulgeIsZero (imv (at_ pl i))) with (bulgeIsZero (at_ pl i)). cbn [radius center imv pos bulge]. rewrite !angle_im.
  unfold px, py. cbn [imv pos]. set (arc := arcRadiusAndCenter (at_ pl i) (at_ pl j)). set (p1 := pos (at_ pl i)). set (p2 := pos (at_ pl j)). clearbody arc p1 p2.
  destruct (bulgeIsZero (at_ pl i)); cbn [snd].
  - f_equal. unfold imBox, image. cbn [xMin yMin xMax yMax vx vy]. f_equal; (apply pick; auto; apply Rltb_im).
  - f_equal. match goal with |- context [angleIsWithinSweep ?a ?b _ _] => set (A0 := a); set (B0 := b) end. clearbody A0 B0. unfold imBox. cbn [xMin yMin xMax yMax].
    assert (F : forall (c : bool) k x y x' y', x' = k + x * s -> y' = k + y * s -> (if c then x' else y') = k + (if c then x else y) * s) by (intros c k x y x' y' -> ->; now destruct c).
    assert (G : forall (lo : bool) k x x' (m : R), x' = k + x * s -> (if Rltb x' (k + m * s) then x' else k + m * s) = k + (if Rltb x m then x else m) * s) by (intros lo k x x' m ->; apply pick; auto; apply Rltb_im).
    assert (G2 : forall k x x' (m : R), x' = k + x * s -> (if Rltb (k + m * s) x' then x' else k + m * s) = k + (if Rltb m x then x else m) * s) by (intros k x x' m ->; apply pick; auto; apply Rltb_im).
    f_equal; [apply (G true)|apply (G true)|apply G2|apply G2]; (apply F; [unfold image; rcbn; ring|unfold image; cbn [vx vy]; first [apply tmin_im|apply tmax_im]]).
Qed.

Lemma imP_segs pl : segs (imP pl) = segs pl.
Proof. unfold segs. now rewrite imP_vertexes, map_length, imP_closed. Qed.

(** visitors that do the same on both polylines *)
Lemma visit_sim {A B} (Rl : A -> B -> Prop) pl (f : A -> nat -> nat -> bool * A) (g : B -> nat -> nat -> bool * B) :
  (forall a b i j, (i < size pl)%nat -> (j < size pl)%nat -> Rl a b -> fst (f a i j) = fst (g b i j) /\ Rl (snd (f a i j)) (snd (g b i j))) ->
  forall a b, Rl a b -> Rl (visitSegIndices (imP pl) f a) (visitSegIndices pl g b).
Proof.
  intros H. intros a0 b0. rewrite !C21_visit_order, imP_segs. revert a0 b0. assert (Hin : forall i j, In (i, j) (segs pl) -> (i < size pl)%nat /\ (j < size pl)%nat) by (intros i j Hij; apply C21_indices in Hij; unfold size; tauto).
  revert Hin. generalize (segs pl). intros l Hin. induction l as [|[i j] l IH]; intros a b Hab; [exact Hab|]. cbn [foldStop].
  assert (Hij : (i < size pl)%nat /\ (j < size pl)%nat) by (apply Hin; left; reflexivity). destruct (H a b i j (proj1 Hij) (proj2 Hij) Hab) as [E1 E2]. destruct (f a i j) as [go a'], (g b i j) as [go' b']. cbn [fst snd] in E1, E2. subst go'.
  destruct go; [|exact E2]. apply IH; [|exact E2]. intros i' j' Hj'. apply Hin. now right.
Qed.

Lemma visit_eq {A} (h : A -> A) pl (f g : A -> nat -> nat -> bool * A) :
  (forall b i j, (i < size pl)%nat -> (j < size pl)%nat -> f (h b) i j = (fst (g b i j), h (snd (g b i j)))) ->
  forall b, visitSegIndices (imP pl) f (h b) = h (visitSegIndices pl g b).
Proof. intros H b. apply (visit_sim (fun a b => a = h b)); [|reflexivity]. intros a b' i j Hi Hj ->. rewrite H by assumption. auto. Qed.

Lemma at_im pl k : (k < size pl)%nat -> at_ (imP pl) k = imv (at_ pl k).
Proof. intros Hk. unfold at_. rewrite imP_vertexes. rewrite nth_indep with (d' := imv vdflt) by (rewrite map_length; exact Hk). apply map_nth. Qed.

Theorem C70_extents pl : vertexes pl <> [] -> exists x0 y0 x1 y1, getExtents pl = mkBox (Fin x0) (Fin y0) (Fin x1) (Fin y1) /\
  getExtents (imP pl) = mkBox (Fin (vx v + x0 * s)) (Fin (vy v + y0 * s)) (Fin (vx v + x1 * s)) (Fin (vy v + y1 * s)).
Proof.
  intros Hne. destruct (vertexes pl) as [|v0 vs] eqn:Ev; [congruence|]. unfold getExtents. rewrite imP_vertexes, Ev. cbn [map].
  pose proof (visit_eq imBox pl (extents_step (imP pl)) (extents_step pl)) as V.
  change (mkAABB (px (imv v0)) (py (imv v0)) (px (imv v0)) (py (imv v0))) with (imBox (mkAABB (px v0) (py v0) (px v0) (py v0))).
  rewrite V by (intros b i j Hi Hj; rewrite extents_im by auto; f_equal; unfold extents_step; cbv zeta; now destruct (bulgeIsZero _)).
  do 4 eexists. split; reflexivity.
Qed.

(** ** path length: exact unless there are segments shorter than the library's threshold *)
Definition tinySeg (a b : vec) : Prop := Rabs (vx a - vx b) < 1 / 100000000 /\ Rabs (vy a - vy b) < 1 / 100000000.

Lemma segLength_im v1 v2 : ~ tinySeg (pos v1) (pos v2) -> ~ tinySeg (im (pos v1)) (im (pos v2)) -> segLength (imv v1) (imv v2) = s * segLength v1 v2.
Proof.
  intros N1 N2. unfold segLength. cbn [imv pos]. assert (F : forall a b : vec, ~ tinySeg a b -> fuzzyEqual a b realThreshold = false).
  { intros a b N. unfold fuzzyEqual, fuzzyEqualR. rcbn. destruct (Rltb (Rabs (vx a - vx b)) (1 / 100000000)) eqn:E1; [|reflexivity]. destruct (Rltb (Rabs (vy a - vy b)) (1 / 100000000)) eqn:E2; [|reflexivity]. apply Rltb_spec in E1, E2. exfalso. apply N. now split. }
  rewrite (F _ _ N1), (F _ _ N2). change (bulgeIsZero (imv v1)) with (bulgeIsZero v1). destruct (bulgeIsZero v1).
  - rewrite distSquared_im. rcbn. rewrite sqrt_mult_alt by (pose proof ss_pos; lra). rewrite sqrt_square by lra. reflexivity.
  - rewrite arc_im. cbv zeta. cbn [radius center]. rewrite !angle_im. rcbn. rewrite Rmult_assoc, Rabs_mult, (Rabs_right s) by lra. reflexivity.
Qed.

Theorem C70_length pl : (forall v1 v2, In (v1, v2) (pathSegs pl) -> ~ tinySeg (pos v1) (pos v2) /\ ~ tinySeg (im (pos v1)) (im (pos v2))) -> getPathLength (imP pl) = s * getPathLength pl.
Proof.
  intros H. unfold getPathLength. rewrite imP_size. destruct (size pl <? 2)%nat; [rcbn; ring|].
  change (visitSegIndices (imP pl) (fun result i j => (true, (fun r a b => tadd r (segLength a b)) result (at_ (imP pl) i) (at_ (imP pl) j))) t0 = s * visitSegIndices pl (fun result i j => (true, (fun r a b => tadd r (segLength a b)) result (at_ pl i) (at_ pl j))) t0).
  rewrite (visit_fold (imP pl) (fun r a b => tadd r (segLength a b))), (visit_fold pl (fun r a b => tadd r (segLength a b))), imP_vsegs, fold_map. assert (H' : forall e, In e (vsegs pl) -> segLength (imv (fst e)) (imv (snd e)) = s * segLength (fst e) (snd e)).
  { intros [a b] Hin. apply (Permutation_in _ (vsegs_perm pl)) in Hin. cbn [fst snd]. destruct (H a b Hin). now apply segLength_im. }
  assert (G : forall r : R, fold_left (fun r0 e => tadd r0 (segLength (imv (fst e)) (imv (snd e)))) (vsegs pl) (s * r) = s * fold_left (fun r0 e => tadd r0 (segLength (fst e) (snd e))) (vsegs pl) r).
  { revert H'. generalize (vsegs pl). intros l. induction l as [|e l IH]; intros H' r; [reflexivity|]. cbn [fold_left]. rewrite (H' e (or_introl eq_refl)). rewrite <- IH by (intros e' He; apply H'; now right). f_equal. rcbn. rring. }
  specialize (G 0). cbn [fst snd]. rewrite Rmult_0_r in G. rewrite !t0_R. exact G.
Qed.
End Similar.

(** ** Translations: everything is exact *)
Section Shift.
Variable v : vec.
Definition shift (q : vec) : vec := mkV (vx v + vx q) (vy v + vy q).
Local Notation im := (image 1 v).
Local Notation imw := (imv 1 v).

Lemma shift_image q : im q = shift q.
Proof. unfold image, shift. apply vec_eq; rcbn; ring. Qed.
Lemma translate_image pl : imageOf 1 v pl = translatePolyline pl v.
Proof.
  destruct pl as [b l]. rewrite imP_map. unfold translatePolyline. cbn [isClosed vertexes]. f_equal. apply map_ext. intros w. unfold imv, mkVertex. f_equal. exact (shift_image (pos w)).
Qed.
Lemma H1 : 0 < 1. Proof. lra. Qed.

Theorem C70_translate_path pl q : onPath (translatePolyline pl v) (shift q) <-> onPath pl q.
Proof. rewrite <- translate_image, <- shift_image. apply C70_path. lra. Qed.
Theorem C70_translate_winding pl q : getWindingNumber (translatePolyline pl v) (shift q) = getWindingNumber pl q.
Proof. rewrite <- translate_image, <- shift_image. apply C70_winding, H1. Qed.

Lemma fuzzy_im p q e : fuzzyEqual (im p) (im q) e = fuzzyEqual p q e.
Proof.
  unfold fuzzyEqual, fuzzyEqualR, image. cbn [vx vy]. cbn [tsub tabs tltb ROps]. f_equal; (f_equal; f_equal; ring).
Qed.
Lemma vsub_im1 p q : vsub (im p) (im q) = vsub p q.
Proof. unfold vsub, image. apply vec_eq; rcbn; rring. Qed.
Lemma vadd_im1 p q : vadd (im p) q = im (vadd p q).
Proof. unfold vadd, image. apply vec_eq; rcbn; rring. Qed.
Lemma dist_im1 p q : distSquared (im p) (im q) = distSquared p q.
Proof. rewrite distSquared_im. rcbn. rring. Qed.
Lemma arc_im1 v1 v2 : arcRadiusAndCenter (imw v1) (imw v2) = mkArc (radius (arcRadiusAndCenter v1 v2)) (im (center (arcRadiusAndCenter v1 v2))).
Proof. rewrite arc_im by apply H1. f_equal. rcbn. rring. Qed.
Lemma left_im1 p0 p1 p : leftExpr (im p0) (im p1) (im p) = leftExpr p0 p1 p.
Proof. rewrite leftExpr_im. rcbn. rring. Qed.

Lemma segLength_im1 v1 v2 : segLength (imw v1) (imw v2) = segLength v1 v2.
Proof.
  unfold segLength. cbn [imv pos]. rewrite fuzzy_im, dist_im1, arc_im1. cbv zeta. cbn [radius center]. rewrite !angle_im by apply H1. reflexivity.
Qed.
Theorem C70_translate_length pl : getPathLength (translatePolyline pl v) = getPathLength pl.
Proof.
  rewrite <- translate_image. unfold getPathLength. rewrite imP_size. destruct (size pl <? 2)%nat; [reflexivity|].
  apply (visit_sim 1 v (fun a b => a = b)); [|reflexivity]. intros a b i j Hi Hj ->. cbn [fst snd]. split; [reflexivity|]. rewrite !at_im by assumption. now rewrite segLength_im1.
Qed.

Lemma closestSeg_im1 v1 v2 p : closestPointOnSeg (imw v1) (imw v2) (im p) = im (closestPointOnSeg v1 v2 p).
Proof.
  unfold closestPointOnSeg. rewrite arc_im1. change (bulgeIsZero (imw v1)) with (bulgeIsZero v1). cbv zeta. cbn [radius center imv pos bulge]. destruct (bulgeIsZero v1).
  - unfold closestPointOnLineSeg. cbv zeta. rewrite !vsub_im1. destruct (tltb _ _); [reflexivity|]. destruct (tltb _ _); [reflexivity|]. apply vadd_im1.
  - rewrite fuzzy_im. destruct (fuzzyEqual _ _ _); [reflexivity|]. unfold pointWithinArcSweepAngle, isLeftOrCoincident, isRightOrCoincident. rewrite !left_im1, !dist_im1, vsub_im1.
    match goal with |- (if ?c then _ else _) = im (if ?c then _ else _) => destruct c end.
    + unfold vadd, image. apply vec_eq; rcbn; rring.
    + now destruct (tltb _ _).
Qed.

Definition imCP (c : closestPt) : closestPt := mkCP (cpIndex c) (im (cpPoint c)) (cpDistance c).
Lemma compute_im1 c pl p : (2 <= size pl)%nat -> closestPoint_compute (imCP c) (imageOf 1 v pl) (im p) = let! r := closestPoint_compute c pl p in Ok (imCP r).
Proof.
  intros Hn. unfold closestPoint_compute. rewrite imP_size, imP_closed. destruct (Nat.eqb_spec (size pl) 1) as [E|_]; [lia|].
  pose proof (visit_eq 1 v imCP pl (closest_step (imageOf 1 v pl) (im p)) (closest_step pl p)) as V.
  change (mkCP (cpIndex (imCP c)) (cpPoint (imCP c)) xinf) with (imCP (mkCP (cpIndex c) (cpPoint c) xinf)).
  rewrite V; clear V.
  - set (st := visitSegIndices pl _ _). clearbody st. cbv zeta. cbn [cpIndex cpPoint cpDistance imCP]. unfold vget. rewrite imP_vertexes. unfold rget. rewrite nth_error_map.
    destruct (nth_error (vertexes pl) (nextWrappingIndex (cpIndex st) (size pl))) as [nv|]; cbn [option_map bind]; [|reflexivity]. cbn [imv pos]. rewrite fuzzy_im. reflexivity.
  - intros b i j Hi Hj. unfold closest_step. rewrite !at_im by assumption. cbv zeta. rewrite closestSeg_im1, vsub_im1. cbn [fst snd]. cbn [cpDistance imCP]. now destruct (xltb _ _).
Qed.

Theorem C70_translate_closest pl p r : closestPoint pl p = Ok r ->
  closestPoint (translatePolyline pl v) (shift p) = Ok (mkCP (cpIndex r) (shift (cpPoint r)) (cpDistance r)).
Proof.
  intros E. rewrite <- translate_image, <- shift_image, <- shift_image. unfold closestPoint in *.
  destruct (Nat.lt_ge_cases (size pl) 2) as [L|L].
  - destruct pl as [b [|w [|w' l]]]; [rewrite C27_empty in E; discriminate| |cbn in L; lia]. rewrite imP_map. cbn [map]. unfold closestPoint_compute in *. cbn [size vertexes length Nat.eqb vget rget nth_error bind imv pos] in *.
    injection E as <-. cbn [cpIndex cpPoint cpDistance]. now rewrite vsub_im1.
  - destruct (C27_best_segment (mkCP 0 vzero xinf) (imageOf 1 v pl) (im p)) as (r' & E' & _ & _ & _ & _ & F); [fold (size (imageOf 1 v pl)); now rewrite imP_size|].
    rewrite E'. specialize (F (imCP (mkCP 0 vzero xinf))). rewrite compute_im1, E in F by exact L. cbn [bind] in F. injection F as <-. reflexivity.
Qed.

Theorem C70_translate_extents pl : vertexes pl <> [] -> exists x0 y0 x1 y1, getExtents pl = mkBox (Fin x0) (Fin y0) (Fin x1) (Fin y1) /\
  getExtents (translatePolyline pl v) = mkBox (Fin (vx v + x0)) (Fin (vy v + y0)) (Fin (vx v + x1)) (Fin (vy v + y1)).
Proof.
  intros H. rewrite <- translate_image. destruct (C70_extents 1 v H1 pl H) as (x0 & y0 & x1 & y1 & E1 & E2). rewrite !Rmult_1_r in E2. exists x0, y0, x1, y1. auto.
Qed.

Lemma prune_im e vs : forall acc l, prune_loop e (map imw acc) (imw l) (map imw vs) = map imw (prune_loop e acc l vs).
Proof.
  induction vs as [|w vs IH]; intros acc l; cbn [prune_loop map]; [now rewrite map_app|]. cbn [imv pos]. rewrite fuzzy_im. destruct (fuzzyEqual _ _ _).
  - exact (IH acc (setBulge l (bulge w))).
  - change [imw l] with (map imw [l]). rewrite <- map_app. apply IH.
Qed.
Lemma removelast_map {A B} (f : A -> B) l : removelast (map f l) = map f (removelast l).
Proof. induction l as [|x [|y l] IH]; [reflexivity|reflexivity|]. cbn [map removelast] in *. f_equal. exact IH. Qed.

Theorem C70_translate_prune pl e : pruneSingularities (translatePolyline pl v) e = translatePolyline (pruneSingularities pl e) v.
Proof.
  rewrite <- !translate_image. destruct pl as [b [|w l]]; [reflexivity|]. rewrite imP_map. unfold pruneSingularities. cbn [vertexes isClosed map]. change (@nil vertex) with (map imw []). rewrite prune_im. cbn [map].
  set (r := prune_loop e [] w l). assert (Hr : r <> []).
  { unfold r. assert (G : forall l w0 acc, prune_loop e acc w0 l <> []); [|apply G]. clear. induction l as [|x l IH]; intros w0 acc; cbn [prune_loop]; [destruct acc; discriminate|]. destruct (fuzzyEqual _ _ _); apply IH. }
  clearbody r. rewrite map_length. cbv zeta. destruct (b && (1 <? length r)%nat)%bool; [|now rewrite imP_map].
  assert (E1 : pos (last (map imw r) vdflt) = im (pos (last r vdflt))).
  { rewrite (last_default _ vdflt (imw vdflt)) by (destruct r; [congruence|discriminate]). clear Hr. induction r as [|x [|y r] IH]; [reflexivity|reflexivity|exact IH]. }
  assert (E2 : pos (hd vdflt (map imw r)) = im (pos (hd vdflt r))) by (destruct r; [congruence|reflexivity]). rewrite E1, E2, fuzzy_im. destruct (fuzzyEqual _ _ _); rewrite imP_map; [now rewrite removelast_map|reflexivity].
Qed.

Theorem C70_translate_invert pl : invertDirection (translatePolyline pl v) = translatePolyline (invertDirection pl) v.
Proof.
  rewrite <- !translate_image. unfold invertDirection. rewrite imP_size. destruct (size pl <? 2)%nat; [reflexivity|]. rewrite imP_vertexes, imP_closed, imP_map. f_equal. rewrite <- map_rev.
  destruct (rev (vertexes pl)) as [|w l]; [reflexivity|]. cbn [map hd]. change (bulge (imw w)) with (bulge w). change (imw w :: map imw l) with (map imw (w :: l)). generalize (bulge w) as b. intros b. generalize (w :: l). clear.
  intros m. induction m as [|x [|y m] IH]; [reflexivity|reflexivity|]. cbn [map shiftBulges] in *. f_equal. exact IH.
Qed.

Lemma arcPoints_im r c a sub n : arcPoints (mkArc r (im c)) a sub n = map imw (arcPoints (mkArc r c) a sub n).
Proof.
  unfold arcPoints. rewrite map_map. apply map_ext. intros i. unfold mkVertex, imv, image. cbn [pos bulge radius center vx vy]. f_equal. apply vec_eq; rcbn; rring.
Qed.
Definition imState (st : res (@T ROps * list vertex)) : res (@T ROps * list vertex) := let! (e, vs) := st in Ok (e, map imw vs).

Theorem C70_translate_arcs pl e : convertArcsToLines (translatePolyline pl v) e = let! r := convertArcsToLines pl e in Ok (translatePolyline r v).
Proof.
  rewrite <- translate_image. unfold convertArcsToLines. pose proof (visit_eq 1 v imState pl (convertArcs_step (imageOf 1 v pl)) (convertArcs_step pl)) as V.
  change (Ok (e, @nil vertex)) with (imState (Ok (e, []))) at 1. rewrite V; clear V.
  - destruct (visitSegIndices pl (convertArcs_step pl) (Ok (e, []))) as [[e' vs]| |]; [|reflexivity|reflexivity]. cbn [imState bind]. rewrite imP_closed. destruct (isClosed pl) eqn:Hc; cbn [negb bind].
    + rewrite <- translate_image, imP_map. reflexivity.
    + unfold lastVertex. rewrite imP_vertexes, <- map_rev. destruct (rev (vertexes pl)) as [|w l]; cbn [map bind]; [reflexivity|]. rewrite <- translate_image, imP_map, map_app. reflexivity.
  - intros st i j Hi Hj. unfold convertArcs_step. rewrite !at_im by assumption. cbv zeta. cbn [fst snd]. f_equal. destruct st as [[e' vs]| |]; [|reflexivity|reflexivity]. cbn [imState bind]. rewrite arc_im1. cbn [radius center].
    change (bulgeIsZero (imw (at_ pl i))) with (bulgeIsZero (at_ pl i)). change (bulgeIsNeg (imw (at_ pl i))) with (bulgeIsNeg (at_ pl i)). destruct (bulgeIsZero (at_ pl i)); [cbn [imState bind]; now rewrite map_app|].
    destruct (tltb (radius _) _); [cbn [imState bind]; now rewrite map_app|]. cbn [imv pos]. rewrite !angle_im by apply H1. destruct (ofOption _) as [k| |]; [|reflexivity|reflexivity]. cbn [bind imState]. rewrite map_app, arcPoints_im. cbn [map].
    destruct (arcRadiusAndCenter (at_ pl i) (at_ pl j)) as [r c]. cbn [radius center]. reflexivity.
Qed.
End Shift.

(** a concrete case: a square with one rounded side, three times as large and moved *)
Example C70_hypotheses : let pl := mkPline true [mkVertex 0 0 0; mkVertex 1 0 (1 / 2); mkVertex 1 1 0; mkVertex 0 1 0] in let v := mkV 5 (- (2)) in
  (forall v1 v2, In (v1, v2) (pathSegs pl) -> ~ tinySeg (pos v1) (pos v2) /\ ~ tinySeg (image 3 v (pos v1)) (image 3 v (pos v2))) /\ vertexes pl <> [] /\ exists r, closestPoint pl (mkV 7 7) = Ok r.
Proof.
  cbv zeta. split; [|split; [discriminate|]].
  - intros v1 v2 H. assert (G : forall a b : vec, (1 <= Rabs (vx a - vx b) \/ 1 <= Rabs (vy a - vy b)) -> ~ tinySeg a b) by (intros a b [H0|H0] [A B]; lra).
    destruct H as [H|[H|[H|[H|[]]]]]; injection H as <- <-; (split; apply G; unfold image; cbn [pos mkVertex vx vy]);
      first [left; rewrite Rabs_right; lra|left; rewrite Rabs_left; lra|right; rewrite Rabs_right; lra|right; rewrite Rabs_left; lra].
  - match goal with |- exists r, closestPoint ?pl ?p = _ => destruct (C27_best_segment (mkCP 0 vzero xinf) pl p) as (r & E & _); [cbn; lia|exists r; exact E] end.
Qed.
