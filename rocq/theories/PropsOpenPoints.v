(** * The points of the raw offset of a straight open polyline *)
From Coq Require Import ZArith Reals Lra Lia List Bool Arith.
From Verif Require Import Base Num MathUtils PlineSegment SpatialIndex Polyline Intersects Combine Offset RGeom Spec PropsMath ArcGeom Polar PropsSegment PropsClosest PropsIntr PropsPlineIntr PropsPolyline Turning PropsWinding PropsRegion PropsCoincident PropsSlices PropsPieces PropsTrace PropsOffset PropsOffsetSlices PropsOffsetSegs PropsRawOffset PropsJoins PropsRawStructure PropsRawGeom PropsOpenTrace PropsOpenCuts PropsOpenRaw.
Import ListNotations.
Open Scope R_scope.

(** a tag of the raw offset of an open polyline with n vertices *)
Definition okTag (n : nat) (T : tag) : Prop := match T with Off j => (S j < n)%nat | Arc j | Link j => (S (S j) < n)%nat end.

Section Poly.
Variables (pl : polyline) (d : R).
Hypothesis HC : clearOpen pl d.
Notation n := (length (vertexes pl)).
Notation P := (pt pl).
Notation E := (edgePt pl d).

Lemma olen_p j : (S j < n)%nat -> 0 < len pl j. Proof. intros Hj. now apply dist_pos', (oP_ne pl d HC). Qed.
Lemma otn j : (S (S j) < n)%nat -> turn (P j) (P (S j)) (P (S (S j))) <> 0. Proof. apply (oturn_ne pl d HC). Qed.

Lemma oonPath_base p : onPath pl p <-> exists j l, (S j < n)%nat /\ 0 <= l <= len pl j /\ p = base pl j l.
Proof.
  unfold onPath. rewrite (pathSegs_seqO pl d HC). pose proof (o2 pl d HC) as H2.
  assert (Eb : forall j t, (S j < n)%nat -> lerp (P j) (P (S j)) t = base pl j (t * len pl j)).
  { intros j t Hj. unfold base, len. rewrite <- (offPt_lerp 0) by now apply (oP_ne pl d HC). unfold lerp, shift. apply vec_eq; cbn [vx vy]; rring. }
  split.
  - intros (v1 & v2 & Hin & Ho). apply in_map_iff in Hin. destruct Hin as (j & Ej & Hj). apply in_seq in Hj. injection Ej as <- <-. apply onSeg_path in Ho. destruct Ho as (t & Ht & ->). assert (Hj' : (S j < n)%nat) by lia.
    rewrite segPath_line by apply (oV_line pl d HC). change (pos (vert pl j 0)) with (P j). change (pos (vert pl (S j) 0)) with (P (S j)). rewrite Eb by auto. exists j, (t * len pl j). split; [lia|]. split; [|reflexivity].
    pose proof (olen_p j Hj') as Hl. split; [apply Rmult_le_pos; lra|]. rewrite <- (Rmult_1_l (len pl j)) at 2. apply Rmult_le_compat_r; lra.
  - intros (j & l & Hj & Hlj & ->). exists (vert pl j 0), (vert pl (S j) 0). split; [apply in_map_iff; exists j; split; [reflexivity|apply in_seq; lia]|]. apply onSeg_path. pose proof (olen_p j Hj) as Hl. exists (l / len pl j). split.
    + split; [apply Rmult_le_pos; [lra|apply Rlt_le, Rinv_0_lt_compat; lra]|]. apply (Rmult_le_reg_r (len pl j)); [auto|]. unfold Rdiv. rewrite Rmult_assoc, Rinv_l, Rmult_1_r by lra. lra.
    + rewrite segPath_line by apply (oV_line pl d HC). change (pos (vert pl j 0)) with (P j). change (pos (vert pl (S j) 0)) with (P (S j)). rewrite Eb by auto. f_equal. field. lra.
Qed.

(** z keeps its distance from the polyline *)
Definition keepsO (z : vec) : Prop := forall j, (S j < n)%nat -> clearE pl d j z.

Lemma keepsO_spec z : keepsO z <-> forall p, onPath pl p -> Rabs d <= dist z p.
Proof.
  split.
  - intros H p Hp. apply oonPath_base in Hp. destruct Hp as (j & l & Hj & Hl & ->). apply away_sqd. now apply H.
  - intros H j Hj l Hl. apply away_sqd, H, oonPath_base. eauto.
Qed.

Lemma onext_away j y : (S (S j) < n)%nat -> 0 <= y -> back pl d j <= y -> clearE pl d (S j) (E j (len pl j - y)).
Proof. intros Hj Hy Hb l Hl. unfold edgePt, base, len. rewrite (sq_next d _ _ _ (otn j Hj)). apply (poly_away d _ _ _ (otn j Hj)); auto. apply Hl. Qed.
Lemma oprev_away j y : (S (S j) < n)%nat -> 0 <= y -> back pl d j <= y -> clearE pl d j (E (S j) y).
Proof.
  intros Hj Hy Hb l Hl. unfold edgePt, base. replace l with (dist (P j) (P (S j)) - (len pl j - l)) by (unfold len; ring). rewrite (sq_prev d _ _ _ (otn j Hj)). apply (poly_away d _ _ _ (otn j Hj)); auto. lra.
Qed.
Lemma onext_close j y : (S (S j) < n)%nat -> 0 <= y < back pl d j -> y <= len pl (S j) -> ~ clearE pl d (S j) (E j (len pl j - y)).
Proof.
  intros Hj Hy Hb H. destruct (poly_close d _ _ _ (otn j Hj) y (len pl (S j)) Hy (olen_p (S j) Hj) Hb) as (m & Hm & Hq). specialize (H m Hm). unfold edgePt, base, len in H. rewrite (sq_next d _ _ _ (otn j Hj)) in H. lra.
Qed.
Lemma oprev_close j y : (S (S j) < n)%nat -> 0 <= y < back pl d j -> y <= len pl j -> ~ clearE pl d j (E (S j) y).
Proof.
  intros Hj Hy Hb H. destruct (poly_close d _ _ _ (otn j Hj) y (len pl j) Hy (olen_p j ltac:(lia)) Hb) as (m & Hm & Hq). specialize (H (len pl j - m) ltac:(lra)). unfold edgePt, base, len in H. rewrite (sq_prev d _ _ _ (otn j Hj)) in H. lra.
Qed.
Lemma oself_away j l : (S j < n)%nat -> clearE pl d j (E j l).
Proof. intros Hj m Hm. unfold edgePt, base. rewrite sqd_off by now apply (oP_ne pl d HC). pose proof (sq_nonneg (l - m)). lra. Qed.

Lemma otrim_bound j : (S (S j) < n)%nat -> 0 <= trimC pl d j <= len pl j /\ trimC pl d j <= len pl (S j).
Proof.
  intros Hj. destruct (met pl d j) eqn:Em; [rewrite trim_met by auto; apply met_true in Em; lra|]. rewrite trim_unmet by auto. pose proof (olen_p j ltac:(lia)). pose proof (olen_p (S j) Hj). lra.
Qed.
Lemma trimS_bound j : (S j < n)%nat -> 0 <= trimS pl d j <= len pl j.
Proof. intros Hj. destruct j as [|i]; cbn [trimS]; [pose proof (olen_p 0 Hj); lra|]. pose proof (otrim_bound i Hj). lra. Qed.
Lemma trimE_bound j : (S j < n)%nat -> 0 <= trimE pl d j <= len pl j.
Proof. intros Hj. unfold trimE. destruct (Nat.ltb_spec (S (S j)) n) as [H|H]; [apply (otrim_bound j H)|pose proof (olen_p j Hj); lra]. Qed.

(** offset points that are trimmed off do not keep their distance *)
Lemma otrimmed_close j l : (S j < n)%nat -> 0 <= l <= len pl j -> l < trimS pl d j \/ len pl j - trimE pl d j < l -> ~ keepsO (E j l).
Proof.
  intros Hj Hl [H|H] K.
  - destruct j as [|i]; cbn [trimS] in H; [lra|]. destruct (met pl d i) eqn:Em; [|rewrite trim_unmet in H by auto; lra]. rewrite trim_met in H by auto. apply met_true in Em. apply (oprev_close i l); [auto|lra|lra|]. apply K. lia.
  - unfold trimE in H. destruct (Nat.ltb_spec (S (S j)) n) as [Hj'|Hj']; [|lra]. destruct (met pl d j) eqn:Em; [|rewrite trim_unmet in H by auto; lra]. rewrite trim_met in H by auto. apply met_true in Em.
    apply (onext_close j (len pl j - l)); [auto|lra|lra|]. replace (len pl j - (len pl j - l)) with l by ring. now apply K.
Qed.

(** a straight link never keeps its distance *)
Lemma olink_close j t : (S (S j) < n)%nat -> d <> 0 -> 0 < back pl d j -> 0 <= t <= 1 -> ~ keepsO (lerp (E j (len pl j)) (E (S j) 0) t).
Proof.
  intros Hj Hd Hb Ht K. pose proof (otn j Hj) as Tn. assert (Hj' : (S j < n)%nat) by lia. destruct (Req_dec t 0) as [->|N0]; [|destruct (Req_dec t 1) as [->|N1]].
  - rewrite lerp_0 in K. apply (onext_close j 0 Hj); [lra|pose proof (olen_p (S j) Hj); lra|]. rewrite Rminus_0_r. now apply K.
  - rewrite lerp_1 in K. apply (oprev_close j 0 Hj); [lra|pose proof (olen_p j Hj'); lra|]. now apply K.
  - pose proof (K j Hj' (len pl j) ltac:(pose proof (olen_p j Hj'); lra)) as H. unfold base, len in H. rewrite (corner_pt _ _ _ Tn) in H.
    pose proof (corner_unit _ _ _ Tn) as U. pose proof (cos_pos _ _ _ Tn) as Cp. pose proof (setback_eq d _ _ _ Tn) as Es. fold (back pl d j) in Es.
    destruct (sinC_nrm _ _ _ Tn) as [_ Ec]. pose proof (nrm_unit _ _ (oP_ne pl d HC j Hj')) as U1. pose proof (nrm_unit _ _ (oP_ne pl d HC (S j) Hj)) as U2.
    assert (Sn : sinC (P j) (P (S j)) (P (S (S j))) <> 0). { intros Z. rewrite Z, Rmult_0_r in Es. pose proof (Rmult_lt_0_compat _ _ Hb Cp). lra. }
    assert (Cn : cosC (P j) (P (S j)) (P (S (S j))) < 1). { set (c := cosC _ _ _) in *. set (s := sinC _ _ _) in *. clearbody c s. pose proof (sumsq_pos s 0 (or_introl Sn)). nra. }
    assert (Eq : sqd (lerp (E j (len pl j)) (E (S j) 0) t) (P (S j)) = d * d * (1 - 2 * t * (1 - t) * (1 - cosC (P j) (P (S j)) (P (S (S j)))))).
    { rewrite Ec. pose proof (f_equal vx (corner_pt _ _ _ Tn)) as Ex. pose proof (f_equal vy (corner_pt _ _ _ Tn)) as Ey. unfold sqd, lerp, edgePt, offPt, len in *. cbn [vx vy] in *.
      set (x := nrmX (P j) (P (S j))) in *. set (y := nrmY (P j) (P (S j))) in *. set (u := nrmX (P (S j)) (P (S (S j)))) in *. set (w := nrmY (P (S j)) (P (S (S j)))) in *. set (L := dist (P j) (P (S j))) in *. clearbody x y u w L.
      replace (vx (P j) + L * y + d * x) with (vx (P (S j)) + d * x) by lra. replace (vy (P j) - L * x + d * y) with (vy (P (S j)) + d * y) by lra.
      apply Rminus_diag_uniq. match goal with |- ?g = 0 => replace g with (d * d * (((1 - t) * (1 - t)) * ((x * x + y * y) - 1) + t * t * ((u * u + w * w) - 1))) by ring end. rewrite U1, U2. ring. }
    assert (H' : d * d <= sqd (lerp (E j (len pl j)) (E (S j) 0) t) (P (S j))) by exact H. rewrite Eq in H'.
    assert (0 < d * d) by (pose proof (sumsq_pos d 0 (or_introl Hd)); lra).
    assert (0 < 2 * t * (1 - t) * (1 - cosC (P j) (P (S j)) (P (S (S j))))) by (apply Rmult_lt_0_compat; [apply Rmult_lt_0_compat|]; lra).
    pose proof (Rmult_lt_0_compat _ _ H0 H1). lra.
Qed.

Lemma ofollows_pt T T' : okTag n T -> okTag n T' -> follows pl d T T' -> endO pl d T = startO pl d T'.
Proof.
  destruct T as [j|j|j]; cbn [follows okTag]; intros Hk.
  - destruct T' as [i|i|i]; cbn [okTag]; intros Hk' H; cbn [endO startO]; unfold trimE.
    + destruct H as [Hm ->]. destruct (Nat.ltb_spec (S (S j)) n); [|lia]. cbn [trimS]. unfold trimC, trim. fold (met pl d j). rewrite Hm. apply offs_meet. now apply otn.
    + destruct H as (Hm & _ & ->). destruct (Nat.ltb_spec (S (S j)) n); [|lia]. unfold trimC, trim. fold (met pl d j). rewrite Hm. now rewrite Rminus_0_r.
    + destruct H as (Hm & _ & ->). destruct (Nat.ltb_spec (S (S j)) n); [|lia]. unfold trimC, trim. fold (met pl d j). rewrite Hm. now rewrite Rminus_0_r.
  - intros _ (Hm & _ & ->). cbn [endO startO trimS]. unfold trimC, trim. fold (met pl d j). now rewrite Hm.
  - intros _ (Hm & _ & ->). cbn [endO startO trimS]. unfold trimC, trim. fold (met pl d j). now rewrite Hm.
Qed.
End Poly.

Section Points.
Variables (pl : polyline) (d : R) (raw : polyline).
Hypothesis HC : clearOpen pl d.
Hypothesis Er : createRawOffsetPline pl d = Ok raw.
Notation n := (length (vertexes pl)).
Notation N := (length (vertexes raw)).
Notation P := (pt pl).
Notation E := (edgePt pl d).
Let tags := openTags pl d.
Definition otagAt (k : nat) : tag := nth k tags (Off 0).

Lemma oraw_is : exists vs z, raw = mkPline false (vs ++ [z]) /\ Forall2 (startsO pl d) tags vs /\ pos z = endO pl d (Off (n - 2)) /\ isLine z.
Proof. destruct (open_raw_structure pl d HC) as (vs & z & E1 & F & Z). exists vs, z. split; [congruence|auto]. Qed.

Lemma oraw_open : isClosed raw = false. Proof. destruct oraw_is as (? & ? & -> & _). reflexivity. Qed.

Lemma oraw_len : N = S (length tags).
Proof. destruct oraw_is as (vs & z & -> & F & _). cbn [vertexes]. rewrite app_length. cbn [length]. rewrite Nat.add_1_r. f_equal. clear -F. induction F; cbn [length]; auto. Qed.

Lemma otags_pos : (1 <= length tags)%nat. Proof. unfold tags, openTags. cbn [length]. lia. Qed.

Lemma oraw2 : (2 <= N)%nat. Proof. rewrite oraw_len. pose proof otags_pos. lia. Qed.

Lemma tag_ok T : In T tags -> okTag n T.
Proof.
  unfold tags, openTags. pose proof (o2 pl d HC). intros [<-|H']; [cbn; lia|]. apply in_flat_map in H'. destruct H' as (i & Hi & HT). apply in_seq in Hi. unfold cornerTags in HT.
  destruct (met pl d i); [|destruct (Rltb (back pl d i) 0)]; cbn [In] in HT; (destruct HT as [<-|HT]; [|try destruct HT as [<-|HT]]); try contradiction; cbn [okTag]; lia.
Qed.

Lemma otag_ok k : okTag n (otagAt k).
Proof.
  unfold otagAt. destruct (Nat.lt_ge_cases k (length tags)) as [H|H]; [apply tag_ok, nth_In, H|]. rewrite nth_overflow by auto. cbn. pose proof (o2 pl d HC). lia.
Qed.

Lemma ooff_in j : (S j < n)%nat -> In (Off j) tags.
Proof.
  intros Hj. unfold tags, openTags. destruct j as [|i]; [now left|]. right. apply in_flat_map. exists i. split; [apply in_seq; lia|]. destruct (cornerTags_last pl d i) as (ts & -> & _). apply in_or_app. right. now left.
Qed.

Lemma oarc_in i : (S (S i) < n)%nat -> back pl d i < 0 -> In (Arc i) tags.
Proof.
  intros Hi Hb. assert (Em : met pl d i = false). { destruct (met pl d i) eqn:Em; auto. apply (met_true pl d) in Em. lra. }
  assert (Ec : cornerTags pl d i = [Arc i; Off (S i)]) by (unfold cornerTags; now rewrite Em, (proj2 (Rltb_spec _ _) Hb)).
  unfold tags, openTags. right. apply in_flat_map. exists i. split; [apply in_seq; lia|]. rewrite Ec. now left.
Qed.

Lemma otag_index T : In T tags -> exists k, (S k < N)%nat /\ otagAt k = T.
Proof. intros H. apply (In_nth _ _ (Off 0)) in H. destruct H as (k & Hk & Ek). exists k. rewrite oraw_len. split; [lia|auto]. Qed.

(** every segment follows the previous one *)
Lemma otag_next k : (S (S k) < N)%nat -> follows pl d (otagAt k) (otagAt (S k)).
Proof. rewrite oraw_len. intros Hk. apply (chained_all pl d (n - 2) 0 k). fold (openTags pl d). fold tags. lia. Qed.

Lemma otag_last : otagAt (length tags - 1) = Off (n - 2).
Proof.
  unfold otagAt, tags. destruct (tags_end pl d HC) as (ts & ->). rewrite app_length. cbn [length]. rewrite app_nth2 by lia. now replace (length ts + 1 - 1 - length ts)%nat with 0%nat by lia.
Qed.

(** a tag that does not end at the end of the polyline is followed by another one *)
Lemma otag_more k i : (S k < N)%nat -> otagAt k = Arc i \/ otagAt k = Link i -> (S (S k) < N)%nat.
Proof.
  rewrite oraw_len. intros Hk Ht. destruct (Nat.eq_dec (S k) (length tags)) as [E'|E']; [|lia]. exfalso. pose proof otag_last as El. replace (length tags - 1)%nat with k in El by lia. destruct Ht; congruence.
Qed.

Lemma ostart i : (i < length tags)%nat -> startsO pl d (otagAt i) (at_ raw i).
Proof.
  intros Hi. destruct oraw_is as (vs & z & -> & F & _). assert (Hl : length tags = length vs) by (clear -F; induction F; cbn [length]; auto). unfold at_. cbn [vertexes]. rewrite app_nth1 by lia. unfold otagAt. clear - F Hi.
  revert i Hi. induction F as [|T v ts vs H F IH]; intros i Hi; [cbn in Hi; lia|]. destruct i as [|i]; [exact H|]. cbn [nth]. apply IH. cbn in Hi. lia.
Qed.

Lemma oat k : (S k < N)%nat -> vert raw k 0 = at_ raw k /\ vert raw k 1 = at_ raw (S k).
Proof. intros Hk. destruct (seg_at_open raw oraw2 oraw_open k Hk) as (A & B & _). auto. Qed.

Lemma otag_ends k : (S k < N)%nat -> startsO pl d (otagAt k) (vert raw k 0) /\ pos (vert raw k 1) = endO pl d (otagAt k).
Proof.
  intros Hk. destruct (oat k Hk) as [-> ->]. pose proof oraw_len as Hl. split; [apply ostart; lia|]. destruct (Nat.eq_dec (S k) (length tags)) as [Ek|Ek].
  - replace k with (length tags - 1)%nat by lia. rewrite otag_last. replace (S (length tags - 1)) with (length tags) by lia. destruct oraw_is as (vs & z & -> & F & <- & _). assert (length tags = length vs) as -> by (clear -F; induction F; cbn [length]; auto).
    unfold at_. cbn [vertexes]. rewrite app_nth2, Nat.sub_diag by lia. reflexivity.
  - rewrite (ofollows_pt pl d HC _ _ (otag_ok k) (otag_ok (S k)) (otag_next k ltac:(lia))). apply ostart. lia.
Qed.

Lemma ofirst : pos (at_ raw 0) = E 0 0.
Proof. destruct (ostart 0 ltac:(pose proof otags_pos; lia)) as [H _]. exact H. Qed.

Lemma olast : pos (at_ raw (N - 1)) = E (n - 2) (len pl (n - 2)).
Proof.
  pose proof oraw_len. pose proof otags_pos. destruct (otag_ends (length tags - 1) ltac:(lia)) as [_ H1]. destruct (oat (length tags - 1) ltac:(lia)) as [_ E1]. rewrite E1, otag_last in H1. replace (N - 1)%nat with (S (length tags - 1)) by lia. rewrite H1.
  cbn [endO]. unfold trimE. destruct (Nat.ltb_spec (S (S (n - 2))) n); [pose proof (o2 pl d HC); lia|]. now rewrite Rminus_0_r.
Qed.

(** the points of the segments *)
Lemma oseg_off k j t : (S k < N)%nat -> otagAt k = Off j -> seg raw k t = E j (trimS pl d j + t * (len pl j - trimE pl d j - trimS pl d j)).
Proof.
  intros Hk Et. destruct (otag_ends k Hk) as [[Hp Hl] He]. rewrite Et in *. cbn [endO startO] in *. unfold seg. rewrite segPath_line by exact Hl. rewrite Hp, He. unfold lerp, edgePt, offPt. apply vec_eq; cbn [vx vy]; rring.
Qed.

Lemma oseg_link k j t : (S k < N)%nat -> otagAt k = Link j -> seg raw k t = lerp (E j (len pl j)) (E (S j) 0) t /\ 0 < back pl d j.
Proof.
  intros Hk Et. pose proof (otag_ok k) as Hok. destruct (otag_ends k Hk) as [[Hp Hl] He]. rewrite Et in *. cbn [endO startO okTag] in *. unfold seg. rewrite segPath_line by exact Hl. rewrite Hp, He. split; [reflexivity|].
  pose proof (otag_next k (otag_more k j Hk (or_intror Et))) as Fo. rewrite Et in Fo. destruct Fo as (_ & H0 & _). destruct (co_corners pl d HC j Hok) as [_ [[H _]|[[H _]|[H _]]]]; [|exact H|exact H].
  pose proof eps_pos. pose proof (olen_p pl d HC j ltac:(lia)) as Hl'. unfold len in Hl'. pose proof (Rmult_lt_0_compat _ _ H1 Hl'). unfold back in H0. lra.
Qed.

Lemma oseg_arc k j : (S k < N)%nat -> otagAt k = Arc j -> back pl d j < 0 /\ exists th, rot (P (S j)) th (E j (len pl j)) = E (S j) 0 /\ Rabs th < PI /\
  forall t, seg raw k t = rot (P (S j)) (t * th) (E j (len pl j)).
Proof.
  intros Hk Et. pose proof (otag_ends k Hk) as G. rewrite Et in G. destruct G as [[Hp [Hl (th & Hr & Hth & _ & Hsw)]] He]. cbn [endO startO] in *. split.
  - pose proof (otag_next k (otag_more k j Hk (or_introl Et))) as Fo. rewrite Et in Fo. exact (proj1 (proj2 Fo)).
  - exists th. split; [auto|]. split; [apply Hth|]. intros t. unfold seg. rewrite segPath_arc by exact Hl. rewrite Hp, Hsw. f_equal. unfold ctrOf. symmetry. apply ctr_unique; [now apply notLine_ne|]. unfold arcCentre. rewrite Hp, He, Hsw. exact Hr.
Qed.

Hypothesis Hd : d <> 0.

Lemma oon_arc i z : (S (S i) < n)%nat -> back pl d i < 0 -> sqd z (P (S i)) = d * d -> len pl i <= along (P i) (P (S i)) z -> along (P (S i)) (P (S (S i))) z <= 0 ->
  exists k, (S k < N)%nat /\ otagAt k = Arc i /\ onSeg (vert raw k 0) (vert raw k 1) z.
Proof.
  intros Hi Hb Hz H1 H2. destruct (otag_index _ (oarc_in i Hi Hb)) as (k & Hk & Et). exists k. split; [auto|]. split; [auto|].
  destruct (oseg_arc k i Hk Et) as (_ & th & Hr & Hth & Hs). destruct (arc_complete d _ _ _ th (otn pl d HC i Hi) Hd Hr Hth Hb z Hz H1 H2) as (t & Ht & ->).
  apply onSeg_path. exists t. split; [auto|]. symmetry. apply Hs.
Qed.

Lemma oon_off j l : (S j < n)%nat -> 0 <= l <= len pl j -> keepsO pl d (E j l) -> exists k, (S k < N)%nat /\ otagAt k = Off j /\ onSeg (vert raw k 0) (vert raw k 1) (E j l).
Proof.
  intros Hj Hl K. destruct (otag_index _ (ooff_in j Hj)) as (k & Hk & Et). exists k. split; [auto|]. split; [auto|].
  assert (Hr : trimS pl d j <= l <= len pl j - trimE pl d j).
  { destruct (Rlt_le_dec l (trimS pl d j)) as [H|H]; [exfalso; apply (otrimmed_close pl d HC j l); auto|]. destruct (Rlt_le_dec (len pl j - trimE pl d j) l) as [H'|H']; [exfalso; apply (otrimmed_close pl d HC j l); auto|]. lra. }
  apply onSeg_path. set (s0 := trimS pl d j) in *. set (s1 := len pl j - trimE pl d j) in *. destruct (Req_dec s0 s1) as [Eq|Ne].
  - exists 0. split; [lra|]. change (E j l = seg raw k 0). rewrite (oseg_off k j 0 Hk Et). fold s0 s1. f_equal. lra.
  - exists ((l - s0) / (s1 - s0)). assert (Eq : (l - s0) / (s1 - s0) * (s1 - s0) = l - s0) by (field; lra). split.
    + split; [apply Rmult_le_pos; [lra|apply Rlt_le, Rinv_0_lt_compat; lra]|]. apply (Rmult_le_reg_r (s1 - s0)); lra.
    + change (E j l = seg raw k ((l - s0) / (s1 - s0))). rewrite (oseg_off k j _ Hk Et). fold s0 s1. replace (len pl j - trimE pl d j - s0) with (s1 - s0) by reflexivity. rewrite Eq. f_equal. lra.
Qed.
End Points.
