(** * The raw offset of a closed straight polyline, segment by segment *)
From Coq Require Import ZArith Reals Lra Lia List Bool Arith.
From Verif Require Import Base Num MathUtils PlineSegment SpatialIndex Polyline Intersects Combine Offset RGeom Spec PropsMath ArcGeom Polar PropsSegment PropsClosest PropsIntr PropsPolyline PropsRegion PropsCoincident PropsSlices PropsPieces PropsOffset PropsOffsetSlices PropsOffsetSegs PropsRawOffset PropsJoins.
Import ListNotations.
Open Scope R_scope.

(** ** Specification *)
(** the point at distance [l] along the edge a -> b, moved by [d] to its left *)
Definition offPt (d : R) (a b : vec) (l : R) : vec := mkV (vx a + l * nrmY a b + d * nrmX a b) (vy a - l * nrmX a b + d * nrmY a b).

Definition dotp (a b c : vec) : R := (vx b - vx a) * (vx c - vx b) + (vy b - vy a) * (vy c - vy b).
(** how far before the corner b the offset lines of a -> b and b -> c meet (negative: after it): d tan (turning angle / 2) *)
Definition setback (d : R) (a b c : vec) : R := d * turn a b c / (dist a b * dist b c + dotp a b c).

(** the offsets of a -> b and b -> c cross *)
Definition metb (d : R) (a b c : vec) : bool := Rltb 0 (setback d a b c) && Rleb (setback d a b c) (dist a b) && Rleb (setback d a b c) (dist b c).
Definition trim (d : R) (a b c : vec) : R := if metb d a b c then setback d a b c else 0.

(** a corner that turns clearly and where the offset lines meet clearly inside or outside the offset segments *)
Definition clearCorner (d : R) (a b c : vec) : Prop := 1 / 100000000 < Rabs (turn a b c) /\
  ((setback d a b c < - eps * dist a b /\ setback d a b c < - (3 / 100000) * Rabs d) \/
   (0 < setback d a b c /\ setback d a b c <= dist a b /\ setback d a b c <= dist b c) \/
   (0 < setback d a b c /\ ((1 + eps) * dist a b < setback d a b c \/ (1 + eps) * dist b c < setback d a b c))).

(** the segments of the raw offset: the (trimmed) offset of edge j; the arc or the straight link between the offsets of the edges j and j + 1 *)
Inductive tag := Off (j : nat) | Arc (j : nat) | Link (j : nat).

Section Tags.
Variables (pl : polyline) (d : R).
Definition pt (j : nat) : vec := pos (vert pl j 0).
Definition len (j : nat) : R := dist (pt j) (pt (S j)).
Definition edgePt (j : nat) (l : R) : vec := offPt d (pt j) (pt (S j)) l.
Definition back (j : nat) : R := setback d (pt j) (pt (S j)) (pt (S (S j))).
Definition met (j : nat) : bool := metb d (pt j) (pt (S j)) (pt (S (S j))).
Definition trimC (j : nat) : R := trim d (pt j) (pt (S j)) (pt (S (S j))).
(** the corner before edge j *)
Definition before (j : nat) : nat := (j + (length (vertexes pl) - 1))%nat.

Definition cornerTags (j : nat) : list tag := if met j then [Off (S j)] else if Rltb (back j) 0 then [Arc j; Off (S j)] else [Link j; Off (S j)].
Definition rawTags : list tag := let n := length (vertexes pl) in Off 0 :: flat_map cornerTags (seq 0 (n - 1)) ++ removelast (cornerTags (n - 1)).

Definition startPt (T : tag) : vec := match T with Off j => edgePt j (trimC (before j)) | Arc j | Link j => edgePt j (len j) end.
Definition endPt (T : tag) : vec := match T with Off j => edgePt j (len j - trimC j) | Arc j | Link j => edgePt (S j) 0 end.

(** the vertex starting a segment *)
Definition starts (T : tag) (v : vertex) : Prop := pos v = startPt T /\
  match T with
  | Off _ | Link _ => isLine v
  | Arc j => ~ isLine v /\ exists th, rot (pt (S j)) th (edgePt j (len j)) = edgePt (S j) 0 /\ 0 < Rabs th < PI /\ (0 < th <-> 0 < turn (pt j) (pt (S j)) (pt (S (S j)))) /\ sweep (bulge v) = th
  end.

Definition follows (T T' : tag) : Prop := match T with
  | Off j => match T' with Off i => met j = true /\ i = S j | Arc i => met j = false /\ back j < 0 /\ i = j | Link i => met j = false /\ 0 <= back j /\ i = j end
  | Arc j => met j = false /\ back j < 0 /\ T' = Off (S j)
  | Link j => met j = false /\ 0 <= back j /\ T' = Off (S j) end.
End Tags.

(** straight closed polyline, clear corners, no raw segment shorter than 1e-5; the first offset segment is not trimmed back to its start (where the library loses the join vertex) *)
Record clearRaw (pl : polyline) (d : R) : Prop := {
  cr_closed : isClosed pl = true;
  cr_size : (3 <= length (vertexes pl))%nat;
  cr_lines : forall v, In v (vertexes pl) -> isLine v;
  cr_edges : forall j, far (pt pl j) (pt pl (S j));
  cr_corners : forall j, clearCorner d (pt pl j) (pt pl (S j)) (pt pl (S (S j)));
  cr_off : forall j, far (startPt pl d (Off j)) (endPt pl d (Off j));
  cr_join : forall j, met pl d j = false -> far (startPt pl d (Arc j)) (endPt pl d (Arc j));
  cr_first : far (edgePt pl d 0 0) (endPt pl d (Off 0)) }.

(** ** Geometry of a corner *)
Lemma len_pos' a b : far a b -> 0 < dist a b.
Proof. intros H. apply dist_pos'. now apply far_ne. Qed.

Lemma turn_units a b c : a <> b -> b <> c -> turn a b c = dist a b * dist b c * (nrmY a b * - nrmX b c - - nrmX a b * nrmY b c) /\
  dotp a b c = dist a b * dist b c * (nrmY a b * nrmY b c + nrmX a b * nrmX b c).
Proof.
  intros H1 H2. pose proof (dist_pos' a b H1). pose proof (dist_pos' b c H2). unfold turn, dotp, nrmX, nrmY. split; field; split; lra.
Qed.

Lemma dotp_pos a b c : turn a b c <> 0 -> 0 < dist a b * dist b c + dotp a b c.
Proof.
  intros H. assert (N1 : a <> b) by (intros ->; apply H; unfold turn; ring). assert (N2 : b <> c) by (intros ->; apply H; unfold turn; ring).
  pose proof (dist_pos' a b N1) as P1. pose proof (dist_pos' b c N2) as P2. destruct (turn_units a b c N1 N2) as [E1 E2]. rewrite E1 in H. rewrite E2.
  pose proof (nrm_unit a b N1) as U1. pose proof (nrm_unit b c N2) as U2.
  set (x := nrmX a b) in *. set (y := nrmY a b) in *. set (z := nrmX b c) in *. set (w := nrmY b c) in *. clearbody x y z w.
  assert (P : 0 < dist a b * dist b c) by now apply Rmult_lt_0_compat.
  assert (K : y * w + x * z <> -1). { intros K. apply H. assert (S : (y + w) * (y + w) + (x + z) * (x + z) = 0) by (replace ((y + w) * (y + w) + (x + z) * (x + z)) with ((x * x + y * y) + (z * z + w * w) + 2 * (y * w + x * z)) by ring; rewrite U1, U2, K; ring).
    pose proof (sq_nonneg (y + w)) as S1. pose proof (sq_nonneg (x + z)) as S2. assert (S3 : (y + w) * (y + w) = 0) by lra. assert (S4 : (x + z) * (x + z) = 0) by lra.
    assert (y = - w) by (apply Rmult_integral in S3; lra). assert (x = - z) by (apply Rmult_integral in S4; lra). subst. ring. }
  assert (G : - 1 <= y * w + x * z) by (pose proof (sq_nonneg (y + w)) as S1; pose proof (sq_nonneg (x + z)) as S2; replace (y * w + x * z) with (((y + w) * (y + w) + (x + z) * (x + z) - (x * x + y * y) - (z * z + w * w)) / 2) by field; rewrite U1, U2; lra).
  assert (0 < 1 + (y * w + x * z)) by lra.
  replace (dist a b * dist b c + dist a b * dist b c * (y * w + x * z)) with (dist a b * dist b c * (1 + (y * w + x * z))) by ring. now apply Rmult_lt_0_compat.
Qed.

(** the two offset lines meet at the set back *)
Lemma offs_meet d a b c : turn a b c <> 0 -> offPt d a b (dist a b - setback d a b c) = offPt d b c (setback d a b c).
Proof.
  intros H. pose proof (dotp_pos a b c H) as Q. unfold setback. assert (N1 : a <> b) by (intros ->; apply H; unfold turn; ring). assert (N2 : b <> c) by (intros ->; apply H; unfold turn; ring).
  pose proof (dist_pos' a b N1) as P1. pose proof (dist_pos' b c N2) as P2. destruct (turn_units a b c N1 N2) as [E1 E2].
  pose proof (nrm_unit a b N1) as U1. pose proof (nrm_unit b c N2) as U2.
  assert (A1 : vx b = vx a + dist a b * nrmY a b) by (unfold nrmY; rfield; lra). assert (A2 : vy b = vy a - dist a b * nrmX a b) by (unfold nrmX; rfield; lra).
  assert (Ex : d * turn a b c / (dist a b * dist b c + dotp a b c) = d * (nrmY a b * - nrmX b c - - nrmX a b * nrmY b c) / (1 + (nrmY a b * nrmY b c + nrmX a b * nrmX b c))).
  { rewrite E1, E2 in *. revert P1 P2 Q. generalize (dist a b) (dist b c) (nrmX a b) (nrmY a b) (nrmX b c) (nrmY b c). clear. intros L1 L2 x y z w P1 P2 Q.
    replace (L1 * L2 + L1 * L2 * (y * w + x * z)) with (L1 * L2 * (1 + (y * w + x * z))) in * by ring.
    assert (1 + (y * w + x * z) <> 0) by (intros Z; rewrite Z in Q; lra). field. split; [auto|split; lra]. }
  rewrite Ex. unfold offPt. rewrite A1, A2. 
  assert (Q' : 1 + (nrmY a b * nrmY b c + nrmX a b * nrmX b c) <> 0).
  { intros Z. rewrite E2 in Q. replace (dist a b * dist b c + dist a b * dist b c * (nrmY a b * nrmY b c + nrmX a b * nrmX b c)) with (dist a b * dist b c * (1 + (nrmY a b * nrmY b c + nrmX a b * nrmX b c))) in Q by ring. rewrite Z in Q. lra. }
  set (x := nrmX a b) in *. set (y := nrmY a b) in *. set (z := nrmX b c) in *. set (w := nrmY b c) in *. clearbody x y z w.
  apply vec_eq; cbn [vx vy].
  - apply Rminus_diag_uniq. match goal with |- ?g = 0 => replace g with (d * (x * (1 - (z * z + w * w)) - z * (1 - (x * x + y * y))) / (1 + (y * w + x * z))) by (field; auto) end. rewrite U1, U2. field. auto.
  - apply Rminus_diag_uniq. match goal with |- ?g = 0 => replace g with (d * (y * (1 - (z * z + w * w)) - w * (1 - (x * x + y * y))) / (1 + (y * w + x * z))) by (field; auto) end. rewrite U1, U2. field. auto.
Qed.

Lemma offPt_lerp d a b s : a <> b -> lerp (shift a (d * nrmX a b) (d * nrmY a b)) (shift b (d * nrmX a b) (d * nrmY a b)) s = offPt d a b (s * dist a b).
Proof.
  intros H. pose proof (dist_pos' a b H). unfold lerp, shift, offPt. apply vec_eq; cbn [vx vy].
  - replace (s * dist a b * nrmY a b) with (s * (vx b - vx a)) by (unfold nrmY; field; lra). rring.
  - replace (s * dist a b * nrmX a b) with (- (s * (vy b - vy a))) by (unfold nrmX; field; lra). rring.
Qed.

Lemma offPt_ends d a b : a <> b -> shift a (d * nrmX a b) (d * nrmY a b) = offPt d a b 0 /\ shift b (d * nrmX a b) (d * nrmY a b) = offPt d a b (dist a b).
Proof.
  intros H. split.
  - unfold shift, offPt. f_equal; ring.
  - rewrite <- (Rmult_1_l (dist a b)), <- offPt_lerp by auto. unfold lerp. apply vec_eq; cbn [vx vy]; rring.
Qed.

Lemma arc_not_line d a b c th bv : turn a b c <> 0 -> rot b th (offPt d a b (dist a b)) = offPt d b c 0 -> Rabs th < PI -> setback d a b c < - (3 / 100000) * Rabs d -> sweep bv = th -> ~ Rabs bv < 1 / 100000.
Proof.
  intros Ht Er Hth Hs Eb Hl. unfold sweep in Eb. pose proof (dotp_pos a b c Ht) as Q. assert (N1 : a <> b) by (intros ->; apply Ht; unfold turn; ring). assert (N2 : b <> c) by (intros ->; apply Ht; unfold turn; ring).
  destruct (offPt_ends d a b N1) as [_ Ev]. rewrite <- Ev in Er. destruct (offPt_ends d b c N2) as [Eu _]. rewrite <- Eu in Er.
  pose proof (dist_pos' a b N1) as P1. pose proof (dist_pos' b c N2) as P2. destruct (turn_units a b c N1 N2) as [E1 E2]. pose proof (nrm_unit a b N1) as U1. pose proof (nrm_unit b c N2) as U2.
  assert (Hd : d <> 0). { intros ->. unfold setback in Hs. rewrite Rabs_R0 in Hs. unfold Rdiv in Hs. rewrite !Rmult_0_l, Rmult_0_r in Hs. lra. }
  apply (f_equal (fun z => (vx z, vy z))) in Er. injection Er as Ex Ey. unfold rot, shift in Ex, Ey. cbn [vx vy] in Ex, Ey.
  unfold setback in Hs. rewrite E1, E2 in *.
  set (x := nrmX a b) in *. set (y := nrmY a b) in *. set (z := nrmX b c) in *. set (w := nrmY b c) in *. set (L1 := dist a b) in *. set (L2 := dist b c) in *. clearbody x y z w L1 L2.
  assert (Fx : d * z = d * (cos th * x - sin th * y)) by (revert Ex; generalize (vx b) (vy b); clear; intros p q H; lra).
  assert (Fy : d * w = d * (sin th * x + cos th * y)) by (revert Ey; generalize (vx b) (vy b); clear; intros p q H; lra).
  apply Rmult_eq_reg_l in Fx; [|auto]. apply Rmult_eq_reg_l in Fy; [|auto].
  assert (Cs : y * w + x * z = cos th) by (rewrite Fx, Fy; replace (y * (sin th * x + cos th * y) + x * (cos th * x - sin th * y)) with (cos th * (x * x + y * y)) by ring; rewrite U1; ring).
  assert (Sn : y * - z - - x * w = sin th) by (rewrite Fx, Fy; replace (y * - (cos th * x - sin th * y) - - x * (sin th * x + cos th * y)) with (sin th * (x * x + y * y)) by ring; rewrite U1; ring).
  rewrite Cs in Hs, Q. rewrite Sn in Hs. clear Ht Fx Fy Cs Sn U1 U2 Ex Ey E1 E2.
  pose proof PI_RGT_0 as Hpi. set (t := atan bv) in *. pose proof (atan_bound bv) as Ht4. fold t in Ht4.
  assert (Eth : th = 2 * (2 * t)) by lra.
  assert (Ct : 0 < cos t) by (apply cos_gt_0; lra).
  assert (St : sin t = bv * cos t). { assert (E : tan t = bv) by (unfold t; apply tan_atan). rewrite <- E. unfold tan. field. lra. }
  assert (S2 : sin th = 2 * (2 * sin t * cos t) * (cos t * cos t - sin t * sin t)) by (rewrite Eth, sin_2a, sin_2a, cos_2a; ring).
  assert (C2 : 1 + cos th = 2 * ((cos t * cos t - sin t * sin t) * (cos t * cos t - sin t * sin t))).
  { rewrite Eth, cos_2a_cos, cos_2a. ring. }
  replace (L1 * L2 + L1 * L2 * cos th) with (L1 * L2 * (1 + cos th)) in * by ring.
  assert (HL : 0 < L1 * L2) by now apply Rmult_lt_0_compat.
  assert (Ed : d * (L1 * L2 * sin th) / (L1 * L2 * (1 + cos th)) = d * (sin th / (1 + cos th))).
  { field. split; [|lra]. intros Z. rewrite Z in Q. lra. }
  rewrite Ed in Hs. rewrite S2, C2, St in Hs. 
  assert (Hb : 0 < 1 - bv * bv). { apply Rabs_def2 in Hl. nra. }
  assert (Er : 2 * (2 * (bv * cos t) * cos t) * (cos t * cos t - bv * cos t * (bv * cos t)) / (2 * ((cos t * cos t - bv * cos t * (bv * cos t)) * (cos t * cos t - bv * cos t * (bv * cos t)))) = 2 * bv / (1 - bv * bv)).
  { field. split; [lra|]. replace (cos t * cos t - bv * cos t * (bv * cos t)) with (cos t * cos t * (1 - bv * bv)) by ring. pose proof (Rmult_lt_0_compat _ _ Ct Ct) as C3. pose proof (Rmult_lt_0_compat _ _ C3 Hb). lra. }
  rewrite Er in Hs.
  assert (Hq : Rabs (2 * bv / (1 - bv * bv)) < 3 / 100000).
  { unfold Rdiv. rewrite Rabs_mult, (Rabs_right (/ _)) by (left; now apply Rinv_0_lt_compat). apply (Rmult_lt_reg_r (1 - bv * bv)); [auto|]. rewrite Rmult_assoc, Rinv_l, Rmult_1_r by lra. rewrite Rabs_mult, (Rabs_right 2) by lra.
    assert (bv * bv <= / 4) by (apply Rabs_def2 in Hl; nra). lra. }
  assert (Hd0 : 0 < Rabs d) by now apply Rabs_pos_lt.
  pose proof (Rle_abs (- (d * (2 * bv / (1 - bv * bv))))) as H1. rewrite Rabs_Ropp, Rabs_mult in H1. pose proof (Rmult_lt_compat_l _ _ _ Hd0 Hq). lra.
Qed.

(** * One corner *)
Section Corner1.
Variables (pl : polyline) (d : R).
Notation n := (length (vertexes pl)).
Notation P := (pt pl).
Notation E := (edgePt pl d).
Notation V := (fun j => vert pl j 0).
Hypothesis n1 : (0 < n)%nat.

Lemma V_shift1 j : V (j + n)%nat = V j.
Proof. unfold vert. replace (j + n + 0)%nat with (j + 0 + 1 * n)%nat by lia. rewrite Nat.mod_add by lia. reflexivity. Qed.

Lemma before_S1 j : trimC pl d (before pl (S j)) = trimC pl d j.
Proof.
  unfold before. replace (S j + (n - 1))%nat with (j + n)%nat by lia. unfold trimC, pt. change (S (j + n)) with (S j + n)%nat. change (S (S j + n)) with (S (S j) + n)%nat. now rewrite !V_shift1.
Qed.

Definition ofs (j : nat) : offsetSeg := offsetSegment d (V j) (V (S j)).

Lemma ofs_eq1 j : isLine (V j) -> P j <> P (S j) -> ofs j = mkOS (mkVtx (E j 0) (bulge (V j))) (mkVtx (E j (len pl j)) (bulge (V (S j)))) (P (S j)) false.
Proof.
  intros L N. unfold ofs. rewrite (offsetLine_R (V j) (V (S j)) d L N). destruct (offPt_ends d (P j) (P (S j)) N) as [E1 E2].
  unfold edgePt, len. rewrite <- E1, <- E2. reflexivity.
Qed.

Lemma edge_dist j : dist (P j) (P (S j)) = len pl j. Proof. reflexivity. Qed.

(** the join at the corner between the edges j and j + 1 adds the vertices of its segments *)
Lemma corner_step1 j : isLine (V j) -> isLine (V (S j)) -> P j <> P (S j) -> P (S j) <> P (S (S j)) -> clearCorner d (P j) (P (S j)) (P (S (S j))) ->
  (met pl d j = false -> far (startPt pl d (Arc j)) (endPt pl d (Arc j))) -> exists bs, Forall2 (starts pl d) (cornerTags pl d j) bs /\
  forall r l w, vertexes r = l ++ [w] -> far (pos w) (endPt pl d (Off j)) -> joinSegs (Rltb d 0) (ofs j) (ofs (S j)) r = Ok (mkPline (isClosed r) (l ++ w :: bs)).
Proof.
  intros VL1 VL2 N1 N2 Hcc HJ. destruct Hcc as [Hturn Hcase]. assert (Ht : turn (P j) (P (S j)) (P (S (S j))) <> 0) by (intros Z; rewrite Z, Rabs_R0 in Hturn; lra).
  pose proof (dist_pos' _ _ N1) as L1. pose proof (dist_pos' _ _ N2) as L2. set (x := setback d (P j) (P (S j)) (P (S (S j)))) in *.
  destruct (C51_corner d (1 - x / len pl j) (x / len pl (S j)) (V j) (V (S j)) (V (S (S j))) VL1 VL2 N1 N2 Hturn) as (Hin & Hout & Hlink).
  { fold (P j) (P (S j)) (P (S (S j))). rewrite !offPt_lerp by auto. rewrite !edge_dist.
    replace ((1 - x / len pl j) * len pl j) with (len pl j - x) by (unfold len in *; field; lra). replace (x / len pl (S j) * len pl (S j)) with x by (unfold len in *; field; lra).
    unfold len. apply offs_meet. exact Ht. }
  fold (ofs j) (ofs (S j)) in Hin, Hout, Hlink. fold (P j) (P (S j)) (P (S (S j))) in Hin, Hout, Hlink.
  pose proof (offPt_ends d (P j) (P (S j)) N1) as [Ev1 Ev2]. pose proof (offPt_ends d (P (S j)) (P (S (S j))) N2) as [Eu1 Eu2].
  rewrite ?Ev2, ?Eu1 in *. fold (edgePt pl d j (dist (P j) (P (S j)))) (edgePt pl d (S j) 0) in *. rewrite ?edge_dist in *.
  pose proof eps_pos as He. 
  assert (Es : len pl j * (1 - (1 - x / len pl j)) = x) by (field; lra). assert (Et : x / len pl (S j) * len pl (S j) = x) by (field; lra).
  unfold cornerTags, endPt, trimC, trim. fold (met pl d j) (back pl d j). fold x in Hcase. change (back pl d j) with x.
  destruct Hcase as [[C1 C1']|[(C1 & C2 & C3)|(C1 & C2)]].
  - assert (Hx : x < 0) by (pose proof (Rmult_lt_0_compat _ _ He L1); unfold len in *; lra).
    assert (Em : met pl d j = false) by (unfold met, metb; fold x; rewrite (proj2 (Rltb_false 0 x)) by lra; reflexivity). rewrite Em, (proj2 (Rltb_spec x 0) Hx).
    destruct Hout as (v & u & th & Ej & Pv & Pu & Lu & Er & Hth & Hsg & Hsw).
    { assert (x / len pl j < - eps); [|lra]. apply (Rmult_lt_reg_r (len pl j)); [auto|]. unfold Rdiv. rewrite Rmult_assoc, Rinv_l, Rmult_1_r by (unfold len in *; lra). exact C1. }
    exists [v; u]. split.
    + constructor; [|constructor; [|constructor]].
      * split; [exact Pv|]. split; [|exists th; repeat (split; [solve [auto]|]); auto]. intros Lv. apply (arc_not_line d (P j) (P (S j)) (P (S (S j))) th (bulge v)); auto; [apply Hth]. 
      * split; [|exact Lu]. rewrite Pu. unfold startPt. rewrite before_S1. unfold trimC, trim. fold (met pl d j). now rewrite Em.
    + intros r l w Evr Hf. rewrite Ej. rewrite Rminus_0_r in Hf. 
      rewrite (addOrReplace_new r l w v Evr) by (apply far_not_fuzzy; rewrite Pv; exact Hf).
      rewrite (addOrReplace_new _ (l ++ [w]) v u); [cbn [isClosed]; now rewrite <- app_assoc|cbn [vertexes]; now rewrite <- app_assoc|].
      apply far_not_fuzzy. rewrite Pv, Pu. apply (HJ Em).
  - assert (Em : met pl d j = true) by (unfold met, metb; fold x; rewrite !edge_dist, (proj2 (Rltb_spec 0 x) C1), (proj2 (Rleb_spec x _) C2), (proj2 (Rleb_spec x _) C3); reflexivity). rewrite Em.
    assert (Q1 : 0 < x / len pl j <= 1). { split; [now apply Rdiv_lt_0_compat|]. apply (Rmult_le_reg_r (len pl j)); [auto|]. unfold Rdiv. rewrite Rmult_assoc, Rinv_l, Rmult_1_r by (unfold len in *; lra). lra. }
    assert (Q2 : 0 < x / len pl (S j) <= 1). { split; [now apply Rdiv_lt_0_compat|]. apply (Rmult_le_reg_r (len pl (S j))); [auto|]. unfold Rdiv. rewrite Rmult_assoc, Rinv_l, Rmult_1_r by (unfold len in *; lra). lra. }
    destruct Hin as (v & Ej & Pv & Lv); [unfold inRange; lra|unfold inRange; lra|].
    rewrite <- Ev2, offPt_lerp in Pv by auto. 
    assert (Pv' : pos v = E j (len pl j - x)). { rewrite Pv. unfold edgePt. f_equal. unfold len. field. unfold len in *; lra. }
    exists [v]. split.
    + constructor; [|constructor]. split; [|exact Lv]. rewrite Pv'. unfold startPt. rewrite before_S1. unfold trimC, trim. fold (met pl d j). rewrite Em. unfold edgePt, len. apply offs_meet. exact Ht.
    + intros r l w Evr Hf. rewrite Ej, (addOrReplace_new r l w v Evr); [reflexivity|]. apply far_not_fuzzy. rewrite Pv'. exact Hf.
  - assert (Em : met pl d j = false).
    { unfold met, metb. fold x. rewrite <- andb_assoc. apply andb_false_iff. right. apply andb_false_iff. unfold len in *. pose proof (Rmult_lt_0_compat _ _ He L1). pose proof (Rmult_lt_0_compat _ _ He L2). destruct C2 as [C2|C2]; [left|right]; apply Rleb_false; lra. }
    rewrite Em, (proj2 (Rltb_false x 0)) by lra.
    destruct Hlink as (v & u & Ej & Pv & Pu & Lv & Lu).
    { assert (0 < x / len pl j) by now apply Rdiv_lt_0_compat.
      destruct C2 as [C2|C2].
      - left. assert (1 + eps < x / len pl j); [|lra]. apply (Rmult_lt_reg_r (len pl j)); [auto|]. unfold Rdiv. rewrite Rmult_assoc, Rinv_l, Rmult_1_r by (unfold len in *; lra). exact C2.
      - right. split; [lra|]. apply (Rmult_lt_reg_r (len pl (S j))); [auto|]. unfold Rdiv. rewrite Rmult_assoc, Rinv_l, Rmult_1_r by (unfold len in *; lra). exact C2. }
    exists [v; u]. split.
    + constructor; [|constructor; [|constructor]].
      * split; [exact Pv|exact Lv].
      * split; [|exact Lu]. rewrite Pu. unfold startPt. rewrite before_S1. unfold trimC, trim. fold (met pl d j). now rewrite Em.
    + intros r l w Evr Hf. rewrite Ej. rewrite Rminus_0_r in Hf. 
      rewrite (addOrReplace_new r l w v Evr) by (apply far_not_fuzzy; rewrite Pv; exact Hf).
      rewrite (addOrReplace_new _ (l ++ [w]) v u); [cbn [isClosed]; now rewrite <- app_assoc|cbn [vertexes]; now rewrite <- app_assoc|].
      apply far_not_fuzzy. rewrite Pv, Pu. apply (HJ Em).
Qed.

End Corner1.

(** ** One join *)
Section Struct.
Variables (pl : polyline) (d : R).
Hypothesis HC : clearRaw pl d.
Notation n := (length (vertexes pl)).
Notation P := (pt pl).
Notation E := (edgePt pl d).
Notation V := (fun j => vert pl j 0).

Lemma n3 : (3 <= n)%nat. Proof. apply (cr_size pl d HC). Qed.

Lemma V_line j : isLine (V j).
Proof. apply (cr_lines pl d HC). unfold vert, at_. apply nth_In, Nat.mod_upper_bound. pose proof n3. lia. Qed.

Lemma V_shift j : V (j + n)%nat = V j.
Proof. unfold vert. pose proof n3. replace (j + n + 0)%nat with (j + 0 + 1 * n)%nat by lia. rewrite Nat.mod_add by lia. reflexivity. Qed.

Lemma P_shift j : P (j + n)%nat = P j.
Proof. unfold pt. now rewrite V_shift. Qed.

Lemma P_ne j : P j <> P (S j).
Proof. apply far_ne, (cr_edges pl d HC). Qed.

Lemma turn_ne j : turn (P j) (P (S j)) (P (S (S j))) <> 0.
Proof. destruct (cr_corners pl d HC j) as [H _]. intros Z. rewrite Z, Rabs_R0 in H. lra. Qed.

Lemma trimC_shift j : trimC pl d (j + n) = trimC pl d j.
Proof. unfold trimC. change (S (j + n)) with (S j + n)%nat. change (S (S j + n)) with (S (S j) + n)%nat. now rewrite !P_shift. Qed.

Lemma before_S j : trimC pl d (before pl (S j)) = trimC pl d j.
Proof. unfold before. pose proof n3. replace (S j + (n - 1))%nat with (j + n)%nat by lia. apply trimC_shift. Qed.

Notation ofs := (ofs pl d).

Lemma ofs_eq j : ofs j = mkOS (mkVtx (E j 0) (bulge (V j))) (mkVtx (E j (len pl j)) (bulge (V (S j)))) (P (S j)) false.
Proof.
  unfold ofs. rewrite (offsetLine_R (V j) (V (S j)) d (V_line j) (P_ne j)). destruct (offPt_ends d (P j) (P (S j)) (P_ne j)) as [E1 E2].
  unfold edgePt, len. rewrite <- E1, <- E2. reflexivity.
Qed.



(** the join at the corner between the edges j and j + 1 adds the vertices of its segments *)
Lemma corner_step j : exists bs, Forall2 (starts pl d) (cornerTags pl d j) bs /\
  forall r l w, vertexes r = l ++ [w] -> far (pos w) (endPt pl d (Off j)) -> joinSegs (Rltb d 0) (ofs j) (ofs (S j)) r = Ok (mkPline (isClosed r) (l ++ w :: bs)).
Proof.
  apply corner_step1; try apply V_line; try apply P_ne; [pose proof n3; lia|apply (cr_corners pl d HC)|apply (cr_join pl d HC)].
Qed.

Lemma cornerTags_last j : exists ts, cornerTags pl d j = ts ++ [Off (S j)] /\ removelast (cornerTags pl d j) = ts.
Proof. unfold cornerTags. destruct (met pl d j); [|destruct (Rltb (back pl d j) 0)]; [exists []|exists [Arc j]|exists [Link j]]; split; reflexivity. Qed.

Lemma joins m : forall j, exists bss, Forall2 (starts pl d) (flat_map (cornerTags pl d) (seq j m)) bss /\
  forall r l w, vertexes r = l ++ [w] -> far (pos w) (endPt pl d (Off j)) -> joinAll (Rltb d 0) (ofs j) (map ofs (seq (S j) m)) r = Ok (mkPline (isClosed r) (l ++ w :: bss)).
Proof.
  induction m as [|m IH]; intros j.
  - exists []. split; [constructor|]. intros r l w Ev _. cbn [seq map joinAll]. rewrite <- Ev. destruct r; reflexivity.
  - destruct (corner_step j) as (bs & Hb & Hj). destruct (IH (S j)) as (bss & Hbs & Hjs). exists (bs ++ bss). split; [cbn [seq flat_map]; now apply Forall2_app|].
    intros r l w Ev Hf. cbn [seq map joinAll]. rewrite (Hj r l w Ev Hf). cbn [bind].
    destruct (cornerTags_last j) as (ts & Ets & _). rewrite Ets in Hb. apply Forall2_app_inv_l in Hb. destruct Hb as (b0 & b1 & _ & H1 & ->). inversion H1 as [|? u ? ? Hu H2]; subst. inversion H2; subst.
    rewrite (Hjs _ (l ++ w :: b0) u); [cbn [isClosed]; cbn [app]; rewrite <- !app_assoc; cbn [app]; rewrite <- ?app_assoc; reflexivity|cbn [vertexes]; rewrite <- !app_assoc; reflexivity|].
    destruct Hu as [-> _]. apply (cr_off pl d HC (S j)).
Qed.

Lemma openSegs_seq dflt : forall l v, openSegs v l = map (fun i => (nth i (v :: l) dflt, nth (S i) (v :: l) dflt)) (seq 0 (length l)).
Proof.
  induction l as [|x l IH]; intros v; [reflexivity|]. cbn [openSegs length seq map nth]. f_equal. rewrite IH, <- seq_shift, map_map. reflexivity.
Qed.

Lemma pathSegs_seq : pathSegs pl = map (fun k => (V k, V (S k))) (seq 0 n).
Proof.
  pose proof n3 as H3. pose proof (cr_closed pl d HC) as Hc. unfold pathSegs, vert, at_. rewrite Hc. destruct (vertexes pl) as [|v [|w vs]] eqn:Ev; [cbn in H3; lia|cbn in H3; lia|].
  rewrite (openSegs_seq vdflt). set (L := v :: w :: vs) in *. replace (length L) with (length (w :: vs) + 1)%nat by (unfold L; cbn [length]; lia). rewrite seq_app, map_app. cbn [seq map Nat.add]. f_equal.
  - apply map_ext_in. intros i Hi. apply in_seq in Hi. cbn [length] in Hi. replace (length (w :: vs) + 1)%nat with (length L) by (unfold L; cbn [length]; lia). rewrite !Nat.add_0_r, !Nat.mod_small by (unfold L; cbn [length]; lia). reflexivity.
  - assert (EL : (length (w :: vs) + 1)%nat = length L) by (unfold L; cbn [length]; lia). rewrite !Nat.add_0_r, !EL.
    rewrite Nat.mod_small by (unfold L; cbn [length]; lia). replace (S (length (w :: vs))) with (length L) by (unfold L; reflexivity). rewrite Nat.mod_same by (unfold L; cbn [length]; lia).
    assert (El : last (w :: vs) v = nth (length (w :: vs)) L vdflt) by (unfold L; change (last (w :: vs) v) with (last (v :: w :: vs) v); rewrite (last_default _ v vdflt) by discriminate; apply last_nth'). rewrite El. reflexivity.
Qed.

Lemma follows_pt T T' : follows pl d T T' -> endPt pl d T = startPt pl d T'.
Proof.
  destruct T as [j|j|j]; cbn [follows].
  - destruct T' as [i|i|i]; intros H; cbn [endPt startPt].
    + destruct H as [Hm ->]. rewrite before_S. unfold trimC, trim. fold (met pl d j). rewrite Hm. apply offs_meet. apply turn_ne.
    + destruct H as (Hm & _ & ->). unfold trimC, trim. fold (met pl d j). rewrite Hm. now rewrite Rminus_0_r.
    + destruct H as (Hm & _ & ->). unfold trimC, trim. fold (met pl d j). rewrite Hm. now rewrite Rminus_0_r.
  - intros (Hm & _ & ->). cbn [endPt startPt]. rewrite before_S. unfold trimC, trim. fold (met pl d j). now rewrite Hm.
  - intros (Hm & _ & ->). cbn [endPt startPt]. rewrite before_S. unfold trimC, trim. fold (met pl d j). now rewrite Hm.
Qed.

(** the tags of a corner, following the edge before it *)
Definition chained (l : list tag) : Prop := forall i, (S i < length l)%nat -> follows pl d (nth i l (Off 0)) (nth (S i) l (Off 0)).

Lemma chained_corner j : chained (Off j :: cornerTags pl d j).
Proof.
  unfold chained, cornerTags. destruct (met pl d j) eqn:Em; [|destruct (Rltb (back pl d j) 0) eqn:Eb].
  - intros [|i] Hi; cbn in Hi; [|lia]. cbn. auto.
  - apply Rltb_spec in Eb. intros [|[|i]] Hi; cbn in Hi; [| |lia]; cbn; auto.
  - apply Rltb_false in Eb. intros [|[|i]] Hi; cbn in Hi; [| |lia]; cbn; auto.
Qed.

Lemma chained_app a l b : chained (a ++ [l]) -> chained (l :: b) -> chained (a ++ l :: b).
Proof.
  intros H1 H2 i Hi. rewrite app_length in Hi. cbn [length] in Hi. destruct (Nat.lt_ge_cases (S i) (length a)) as [H|H].
  - rewrite !app_nth1 by lia. specialize (H1 i). rewrite app_length in H1. cbn [length] in H1. specialize (H1 ltac:(lia)). rewrite !app_nth1 in H1 by lia. exact H1.
  - destruct (Nat.eq_dec (S i) (length a)) as [He|He].
    + rewrite app_nth1 by lia. rewrite app_nth2 by lia. replace (S i - length a)%nat with 0%nat by lia. cbn [nth]. specialize (H1 i). rewrite app_length in H1. cbn [length] in H1. specialize (H1 ltac:(lia)).
      rewrite app_nth1 in H1 by lia. rewrite app_nth2 in H1 by lia. replace (S i - length a)%nat with 0%nat in H1 by lia. exact H1.
    + rewrite !app_nth2 by lia. replace (S i - length a)%nat with (S (i - length a)) by lia. apply H2. cbn [length]. lia.
Qed.

Lemma chained_all m : forall j, chained (Off j :: flat_map (cornerTags pl d) (seq j m)).
Proof.
  induction m as [|m IH]; intros j; [intros i Hi; cbn in Hi; lia|]. cbn [seq flat_map]. pose proof (chained_corner j) as Hc. destruct (cornerTags_last j) as (ts & Ets & _). rewrite Ets in *.
  rewrite <- app_assoc. change (Off j :: ts ++ [Off (S j)] ++ flat_map (cornerTags pl d) (seq (S j) m)) with ((Off j :: ts) ++ Off (S j) :: flat_map (cornerTags pl d) (seq (S j) m)). apply chained_app; [exact Hc|apply IH].
Qed.

Lemma tags_snoc : rawTags pl d ++ [Off n] = Off 0 :: flat_map (cornerTags pl d) (seq 0 n).
Proof.
  unfold rawTags. pose proof n3. replace (seq 0 n) with (seq 0 (n - 1) ++ [(n - 1)%nat]) by (rewrite <- seq_S; f_equal; lia). rewrite flat_map_app. cbn [flat_map]. rewrite app_nil_r.
  destruct (cornerTags_last (n - 1)) as (ts & -> & Er). rewrite removelast_last. replace (S (n - 1)) with n by lia. cbn [app]. now rewrite <- app_assoc.
Qed.

(** consecutive segments of the raw offset, going around *)
Lemma tags_follow k : (k < length (rawTags pl d))%nat -> let N := length (rawTags pl d) in
  follows pl d (nth k (rawTags pl d) (Off 0)) (nth (S k) (rawTags pl d ++ [Off n]) (Off 0)).
Proof.
  intros Hk N. pose proof (chained_all n 0) as Hc. rewrite <- tags_snoc in Hc. specialize (Hc k). rewrite app_length in Hc. cbn [length] in Hc. specialize (Hc ltac:(lia)). rewrite app_nth1 in Hc by lia. exact Hc.
Qed.

Theorem raw_structure : exists vs, createRawOffsetPline pl d = Ok (mkPline true vs) /\ Forall2 (starts pl d) (rawTags pl d) vs.
Proof.
  pose proof n3 as H3. unfold createRawOffsetPline, size. destruct (Nat.ltb_spec n 2); [lia|].
  match goal with |- context [bind ?m _] => assert (E' : m = Ok (map ofs (seq 0 n))) end.
  { etransitivity; [apply C39_one_per_segment; lia|]. rewrite pathSegs_seq, map_map. reflexivity. }
  rewrite E'. cbn [bind]. clear E'. replace (seq 0 n) with (0%nat :: 1%nat :: seq 2 (n - 2)) by (replace n with (S (S (n - 2))) at 2 by lia; reflexivity). cbn [map].
  assert (collapsedArc (ofs 0) = false) as -> by (rewrite ofs_eq; reflexivity). rewrite andb_false_r.
  assert (Et0 : tltb d t0 = Rltb d 0) by (rcbn; reflexivity). rewrite Et0. rewrite (cr_closed pl d HC).
  destruct (corner_step 0) as (bs0 & Hb0 & Hj0). destruct (joins (n - 2) 1) as (bss & Hbs & Hjs). destruct (corner_step (n - 1)) as (bs & Hb & Hj).
  set (w0 := osV1 (ofs 0)).
  assert (Pw0 : pos w0 = E 0 0) by (unfold w0; rewrite ofs_eq; reflexivity). assert (Lw0 : isLine w0) by (unfold w0; rewrite ofs_eq; exact (V_line 0)).
  rewrite (Hj0 (mkPline true [w0]) [] w0 eq_refl) by (rewrite Pw0; apply (cr_first pl d HC)). cbn [bind isClosed app vertexes].
  destruct (cornerTags_last 0) as (ts0 & Ets0 & _). pose proof Hb0 as Hb0'. rewrite Ets0 in Hb0'. apply Forall2_app_inv_l in Hb0'. destruct Hb0' as (c0 & c1 & _ & H1 & Ebs0). inversion H1 as [|? u0 ? ? Hu0 H2]; subst c1. inversion H2; subst.
  assert (E1 : (length (w0 :: c0 ++ [u0]) =? 1)%nat = false) by (apply Nat.eqb_neq; cbn [length]; rewrite app_length; cbn [length]; lia). 
  rewrite (Hjs _ (w0 :: c0) u0); [|reflexivity|destruct Hu0 as [-> _]; apply (cr_off pl d HC 1)]. cbn [bind isClosed vertexes]. rewrite E1.
  assert (E2 : (1 <? length ((w0 :: c0) ++ u0 :: bss))%nat = true) by (apply Nat.ltb_lt; cbn [length app]; rewrite app_length; cbn [length]; lia). rewrite E2. cbn [andb].
  assert (Elast : last (ofs 1 :: map ofs (seq 2 (n - 2))) (ofs 0) = ofs (n - 1)).
  { change (ofs 1 :: map ofs (seq 2 (n - 2))) with (map ofs (seq 1 (S (n - 2)))). rewrite seq_S, map_app. cbn [map]. rewrite last_last. f_equal. lia. }
  rewrite Elast.
  (* the vertices so far *)
  assert (Hall : Forall2 (starts pl d) (flat_map (cornerTags pl d) (seq 0 (n - 1))) (c0 ++ u0 :: bss)).
  { replace (seq 0 (n - 1)) with (0%nat :: seq 1 (n - 2)) by (replace (n - 1)%nat with (S (n - 2)) by lia; reflexivity). cbn [flat_map]. replace (c0 ++ u0 :: bss) with ((c0 ++ [u0]) ++ bss) by (rewrite <- app_assoc; reflexivity). apply Forall2_app; auto. }
  assert (Hend : exists l lv, c0 ++ u0 :: bss = l ++ [lv] /\ starts pl d (Off (n - 1)) lv).
  { pose proof Hall as Hall'. replace (seq 0 (n - 1)) with (seq 0 (n - 2) ++ [(n - 2)%nat]) in Hall' by (rewrite <- seq_S; f_equal; lia). rewrite flat_map_app in Hall'. cbn [flat_map] in Hall'. rewrite app_nil_r in Hall'.
    destruct (cornerTags_last (n - 2)) as (ts & Ets & _). rewrite Ets, app_assoc in Hall'. apply Forall2_app_inv_l in Hall'. destruct Hall' as (x & y & _ & Hy & ->). inversion Hy as [|? lv ? ? Hlv H4]; subst. inversion H4; subst. exists x, lv. split; [reflexivity|]. now replace (n - 1)%nat with (S (n - 2)) by lia. }
  destruct Hend as (l & lv & El & Hlv). 
  destruct (cornerTags_last (n - 1)) as (tsn & Etsn & Ern). rewrite Etsn in Hb. apply Forall2_app_inv_l in Hb. destruct Hb as (b0 & b1 & Hb0' & Hb1 & ->). inversion Hb1 as [|? z ? ? Hz H4]; subst. inversion H4; subst.
  assert (Eofs : ofs (S (n - 1)) = ofs 0). { unfold ofs. replace (S (n - 1)) with (0 + n)%nat by lia. change (S (0 + n)) with (1 + n)%nat. rewrite !V_shift. reflexivity. }
  rewrite Eofs in Hj.
  pose proof (Hj (mkPline false [lv]) [] lv eq_refl ltac:(destruct Hlv as [-> _]; apply (cr_off pl d HC (n - 1)))) as Ecl. cbn [app isClosed] in Ecl.
  assert (Er2 : vertexes (mkPline true ((w0 :: c0) ++ u0 :: bss)) = (w0 :: l) ++ [lv]) by (cbn [vertexes app]; now rewrite El).
  rewrite (closeRaw_R (Rltb d 0) (ofs (n - 1)) (ofs 0) _ (w0 :: l) lv _ (lv :: b0) z w0 (l ++ lv :: b0) Er2 ltac:(discriminate) Ecl eq_refl eq_refl Lw0). cbn [isClosed].
  assert (Et : l ++ lv :: b0 = (c0 ++ u0 :: bss) ++ b0) by (rewrite El, <- app_assoc; reflexivity). rewrite Et.
  assert (Epz : pos z = startPt pl d (Off 0)).
  { destruct Hz as [-> _]. replace (S (n - 1)) with (0 + n)%nat by lia. cbn [startPt]. unfold before. replace (0 + n + (n - 1))%nat with ((0 + (n - 1)) + n)%nat by lia. rewrite trimC_shift. unfold edgePt. change (S (0 + n)) with (1 + n)%nat. now rewrite !P_shift. }
  assert (Hz0 : starts pl d (Off 0) (setPos w0 (pos z))) by (split; [exact Epz|exact Lw0]).
  destruct ((c0 ++ u0 :: bss) ++ b0) as [|x t] eqn:Ext; [destruct c0; discriminate|].
  assert (Px : pos x = endPt pl d (Off 0)).
  { assert (Hh : follows pl d (Off 0) (nth 0%nat (cornerTags pl d 0%nat) (Off 0))). { pose proof (chained_corner 0%nat 0%nat) as H5. rewrite Ets0 in H5 |- *. cbn [length] in H5. rewrite app_length in H5. cbn [length] in H5. exact (H5 ltac:(lia)). }
    rewrite (follows_pt _ _ Hh). rewrite Ets0 in *. destruct ts0 as [|T0 ts0]; inversion Hb0 as [|? x' ? ? Hx' _ Eq1 Eq2]; subst; (assert (x = x') as -> by (destruct c0 as [|y c0]; cbn [app] in Eq2, Ext; congruence)); destruct Hx' as [-> _]; reflexivity. }
  rewrite far_not_fuzzy by (rewrite Epz, Px; apply (cr_off pl d HC 0)). cbn [bind].
  exists (setPos w0 (pos z) :: x :: t). split; [reflexivity|]. unfold rawTags. constructor; [exact Hz0|]. rewrite <- Ext. apply Forall2_app; auto.
Qed.
End Struct.
