(** * Along the raw offset of an open polyline, the distance to the input only changes between "kept" and "not kept" at the cut points *)
From Coq Require Import ZArith Reals Lra Lia List Bool Arith.
From Coquelicot Require Import Coquelicot.
From Verif Require Import Base Num MathUtils PlineSegment SpatialIndex Polyline Intersects Combine Offset RGeom Spec PropsMath ArcGeom Polar PropsSegment PropsClosest PropsIntr PropsPlineIntr PropsPolyline Turning PropsWinding PropsRegion PropsCoincident PropsSlices PropsPieces PropsTrace PropsBoolOps PropsOffset PropsOffsetSlices PropsOffsetSegs PropsRawOffset PropsJoins PropsRawStructure PropsRawGeom PropsRawPoints PropsOffsetCuts PropsCover PropsRunPoints PropsJordan PropsOpenTrace PropsOpenCuts PropsOffsetConst PropsOpenRaw PropsOpenPoints.
Import ListNotations.
Open Scope R_scope.

Section Const.
Variables (pl : polyline) (d : R) (raw dual : polyline).
Hypothesis (HC : clearOpen pl d) (HC' : clearOpen pl (- d)) (Hd : d <> 0).
Hypothesis (Er : createRawOffsetPline pl d = Ok raw) (Ed : createRawOffsetPline pl (- d) = Ok dual).
Notation n := (length (vertexes pl)).
Notation N := (length (vertexes raw)).
Notation P := (pt pl).
Notation K := (keepsO pl d).
Notation tg := (otagAt pl d).

Lemma okeeps_opp z : K z <-> keepsO pl (- d) z.
Proof. unfold keepsO, clearE. rewrite rawtag_opp_sq. tauto. Qed.

Lemma obase_end i : (S i < n)%nat -> base pl i (len pl i) = P (S i).
Proof.
  intros Hi. pose proof (olen_p pl d HC i Hi) as L. unfold base, len in *. unfold offPt, nrmX, nrmY. apply vec_eq; cbn [vx vy]; rfield; lra.
Qed.
Lemma osqd_along i z l : (S i < n)%nat -> sqd z (base pl i l) = (along (P i) (P (S i)) z - l) * (along (P i) (P (S i)) z - l) + leftw (P i) (P (S i)) z * leftw (P i) (P (S i)) z.
Proof. intros Hi. now apply sqd_base, (oP_ne pl d HC). Qed.

(** z is at the offset distance from one of the ends of the polyline *)
Definition atEnd (z : vec) : Prop := sqd z (P 0) = d * d \/ sqd z (P (n - 1)) = d * d.

Lemma oactive_cases j z : (S j < n)%nat -> K z -> activeE pl d j z ->
  (exists e l, (e = d \/ e = - d) /\ 0 <= l <= len pl j /\ z = edgePt pl e j l) \/ (exists i, j = S i /\ atCorner pl d i z) \/ ((S (S j) < n)%nat /\ atCorner pl d j z) \/ atEnd z.
Proof.
  intros Hj HK (l & Hl & He). assert (HE : forall i x, (S i < n)%nat -> 0 <= x <= len pl i -> d * d <= (along (P i) (P (S i)) z - x) * (along (P i) (P (S i)) z - x) + leftw (P i) (P (S i)) z * leftw (P i) (P (S i)) z).
  { intros i x Hi Hx. rewrite <- osqd_along by auto. now apply HK. }
  rewrite osqd_along in He by auto. destruct (foot_cases d _ _ (len pl j) l ltac:(lra) Hl (fun x => HE j x Hj) He) as [[Hp Hv]|[[Hp Hq]|[Hp Hq]]].
  - left. exists (leftw (P j) (P (S j)) z), (along (P j) (P (S j)) z). split; [auto|]. split; [auto|]. now apply coords, (oP_ne pl d HC).
  - right. rewrite <- osqd_along, base_start in Hq by auto. destruct j as [|i]; [right; right; left; exact Hq|]. left. exists i. split; [auto|]. split; [auto|]. split; [|lra].
    apply (end_high d _ (leftw (P i) (P (S i)) z)); [apply (olen_p pl d HC); lia|intros x Hx; apply HE; [lia|auto]|]. rewrite <- osqd_along, obase_end by lia. exact Hq.
  - right. right. rewrite <- osqd_along, obase_end in Hq by auto. destruct (Nat.lt_ge_cases (S (S j)) n) as [H2|H2]; [left|right; right; replace (n - 1)%nat with (S j) by lia; exact Hq]. split; [auto|]. split; [auto|]. split; [lra|].
    apply (end_low d _ (leftw (P (S j)) (P (S (S j))) z) (len pl (S j))); [now apply (olen_p pl d HC)|intros x Hx; now apply HE|]. rewrite <- osqd_along, base_start by auto. exact Hq.
Qed.

Lemma oonSeg_onPath (r : polyline) k z : isClosed r = false -> (2 <= length (vertexes r))%nat -> (S k < length (vertexes r))%nat -> onSeg (vert r k 0) (vert r k 1) z -> onPath r z.
Proof. intros Hc H2 Hk Ho. destruct (seg_at_open r H2 Hc k Hk) as (_ & _ & _ & I). exists (vert r k 0), (vert r k 1). auto. Qed.

Lemma oback_ne i : (S (S i) < n)%nat -> back pl d i <> 0.
Proof.
  intros Hi Z. pose proof (otn pl d HC i Hi) as Tn. pose proof (setback_eq d _ _ _ Tn) as E. fold (back pl d i) in E. rewrite Z, Rmult_0_l in E. symmetry in E. apply Rmult_integral in E. destruct E as [E|E]; [contradiction|].
  unfold sinC in E. pose proof (olen_p pl d HC i ltac:(lia)) as L1. pose proof (olen_p pl d HC (S i) Hi) as L2. unfold len in L1, L2. pose proof (Rmult_lt_0_compat _ _ L1 L2) as L. apply Tn.
  apply (Rmult_eq_reg_r (/ (dist (P i) (P (S i)) * dist (P (S i)) (P (S (S i)))))); [unfold Rdiv in E; lra|]. apply Rinv_neq_0_compat. lra.
Qed.

Lemma odual_path k z : (S k < length (vertexes dual))%nat -> onSeg (vert dual k 0) (vert dual k 1) z -> onPath dual z.
Proof. intros Hk Ho. apply (oonSeg_onPath dual k); auto; [apply (oraw_open pl (- d) dual HC' Ed)|apply (oraw2 pl (- d) dual HC' Ed)]. Qed.

(** a point that keeps its distance and is at distance exactly |d| from edge j lies on the raw offset segment of that edge or of one of its corners, or on the
    raw offset to the other side, or on one of the end circles *)
Lemma ocomplete j z : (S j < n)%nat -> K z -> activeE pl d j z ->
  (exists k, (S k < N)%nat /\ onSeg (vert raw k 0) (vert raw k 1) z /\ (tg k = Off j \/ tg k = Arc j \/ exists i, j = S i /\ tg k = Arc i)) \/ onPath dual z \/ atEnd z.
Proof.
  intros Hj HK HA. assert (HK' := proj1 (okeeps_opp z) HK). assert (Hd' : - d <> 0) by lra.
  assert (Cor : forall i, (S (S i) < n)%nat -> atCorner pl d i z -> (exists k, (S k < N)%nat /\ onSeg (vert raw k 0) (vert raw k 1) z /\ tg k = Arc i) \/ onPath dual z).
  { intros i Hi (H1 & H2 & H3). destruct (Rlt_le_dec (back pl d i) 0) as [Hb|Hb].
    - left. destruct (oon_arc pl d raw HC Er Hd i z Hi Hb H1 H2 H3) as (k & Hk & Ht & Ho). eauto.
    - right. pose proof (oback_ne i Hi). destruct (oon_arc pl (- d) dual HC' Ed Hd' i z Hi) as (k & Hk & _ & Ho); auto; [rewrite back_opp; lra|rewrite H1; ring|]. now apply (odual_path k). }
  destruct (oactive_cases j z Hj HK HA) as [(e & l & He & Hl & Ez)|[(i & -> & Ha)|[[Hj2 Ha]|Ha]]]; [| | |auto].
  - destruct He as [-> | ->].
    + left. rewrite Ez in HK |- *. destruct (oon_off pl d raw HC Er j l Hj Hl HK) as (k & Hk & Ht & Ho). exists k. auto.
    + right. left. rewrite Ez in HK' |- *. destruct (oon_off pl (- d) dual HC' Ed j l Hj Hl HK') as (k & Hk & _ & Ho). now apply (odual_path k).
  - destruct (Cor i Hj Ha) as [(k & Hk & Ho & Ht)|Ho]; [left; exists k; eauto 8|right; auto].
  - destruct (Cor j Hj2 Ha) as [(k & Hk & Ho & Ht)|Ho]; [left; exists k; auto|right; auto].
Qed.

(** ** The segments of the raw offset and the edges they belong to *)
Lemma oarc_clear k i t : (S k < N)%nat -> tg k = Arc i -> 0 <= t <= 1 -> clearE pl d i (seg raw k t) /\ clearE pl d (S i) (seg raw k t).
Proof.
  intros Hk Et Ht. pose proof (otag_ok pl d HC k) as Hok. rewrite Et in Hok. cbn [okTag] in Hok. assert (Hi : (S i < n)%nat) by lia.
  destruct (oseg_arc pl d raw HC Er k i Hk Et) as (Hb & th & Hr & Hth & Hs). rewrite Hs.
  pose proof (arc_cone d _ _ _ th (otn pl d HC i Hok) Hd Hr Hth Hb t Ht) as [C1 C2]. pose proof (arc_coords d _ _ _ th (otn pl d HC i Hok) Hd Hr (t * th)) as (C0 & _).
  change (edgePt pl d i (len pl i)) with (offPt d (P i) (P (S i)) (dist (P i) (P (S i)))). cbn zeta in C0. set (z := rot (P (S i)) (t * th) _) in *. clearbody z. split; intros l Hl.
  - rewrite osqd_along by auto. rewrite <- (obase_end i), osqd_along in C0 by auto. rewrite <- C0. fold (len pl i) in C1. set (a := along (P i) (P (S i)) z) in *. assert ((a - len pl i) * (a - len pl i) <= (a - l) * (a - l)) by nra. lra.
  - rewrite osqd_along by auto. rewrite <- (base_start pl (S i)), osqd_along in C0 by auto. rewrite <- C0. set (a := along (P (S i)) (P (S (S i))) z) in *. assert ((a - 0) * (a - 0) <= (a - l) * (a - l)) by nra. lra.
Qed.

(** an offset segment with a point that keeps its distance runs forward *)
Lemma ooff_range k j t : (S k < N)%nat -> tg k = Off j -> 0 <= t <= 1 -> K (seg raw k t) -> trimS pl d j <= len pl j - trimE pl d j.
Proof.
  intros Hk Et Ht HK. pose proof (otag_ok pl d HC k) as Hok. rewrite Et in Hok. cbn [okTag] in Hok. rewrite (oseg_off pl d raw HC Er k j t Hk Et) in HK. pose proof (trimS_bound pl d HC j Hok) as B1. pose proof (trimE_bound pl d HC j Hok) as B2.
  set (s0 := trimS pl d j) in *. set (s1 := trimE pl d j) in *. destruct (Rle_lt_dec s0 (len pl j - s1)) as [|H]; auto. exfalso.
  set (l := s0 + t * (len pl j - s1 - s0)) in *. assert (len pl j - s1 <= l <= s0) by (unfold l; nra). apply (otrimmed_close pl d HC j l Hok); [lra| |exact HK]. fold s0 s1. lra.
Qed.

Lemma ooff_next k j t : (S k < N)%nat -> tg k = Off j -> (S (S j) < n)%nat -> trimS pl d j <= len pl j - trimE pl d j -> (met pl d j = true \/ back pl d j < 0) -> 0 <= t <= 1 -> clearE pl d (S j) (seg raw k t).
Proof.
  intros Hk Et Hj Hr Hm Ht. rewrite (oseg_off pl d raw HC Er k j t Hk Et). assert (EE : trimE pl d j = trimC pl d j) by (unfold trimE; destruct (Nat.ltb_spec (S (S j)) n); [reflexivity|lia]). rewrite EE in *.
  set (s0 := trimS pl d j) in *. destruct (otrim_bound pl d HC j Hj) as [[B1 _] _].
  match goal with |- clearE _ _ _ (edgePt _ _ _ ?l) => replace l with (len pl j - (len pl j - l)) by ring; assert (Hl : trimC pl d j <= len pl j - l) by nra end. apply (onext_away pl d HC); [auto|lra|].
  destruct Hm as [Hm|Hm]; [rewrite <- (trim_met pl d j Hm); exact Hl|lra].
Qed.

Lemma ooff_prev k j t : (S k < N)%nat -> tg k = Off (S j) -> trimS pl d (S j) <= len pl (S j) - trimE pl d (S j) -> (met pl d j = true \/ back pl d j < 0) -> 0 <= t <= 1 -> clearE pl d j (seg raw k t).
Proof.
  intros Hk Et Hr Hm Ht. pose proof (otag_ok pl d HC k) as Hok. rewrite Et in Hok. cbn [okTag] in Hok. rewrite (oseg_off pl d raw HC Er k (S j) t Hk Et). destruct (otrim_bound pl d HC j Hok) as [[B1 _] _]. cbn [trimS] in *. set (s0 := trimC pl d j) in *.
  match goal with |- clearE _ _ _ (edgePt _ _ _ ?l) => assert (Hl : s0 <= l) by nra end. apply (oprev_away pl d HC); [auto|lra|].
  destruct Hm as [Hm|Hm]; [rewrite <- (trim_met pl d _ Hm); exact Hl|lra].
Qed.

Lemma ooff_self k j t : (S k < N)%nat -> tg k = Off j -> clearE pl d j (seg raw k t).
Proof. intros Hk Et. pose proof (otag_ok pl d HC k) as Hok. rewrite Et in Hok. rewrite (oseg_off pl d raw HC Er k j t Hk Et). now apply (oself_away pl d HC). Qed.

(** ** Where the raw offset is at distance |d| from an edge but not cut, it stays clear of that edge along the whole segment *)
Lemma oactive_ok k tau j t : (S k < N)%nat -> 0 <= tau <= 1 -> (S j < n)%nat -> 0 <= t <= 1 ->
  K (seg raw k tau) -> ~ openDouble raw (seg raw k tau) -> ~ onPath dual (seg raw k tau) -> ~ atEnd (seg raw k tau) -> activeE pl d j (seg raw k tau) -> clearE pl d j (seg raw k t).
Proof.
  intros Hk Htau Hj Ht HK ND NC NE HA. destruct (ocomplete j _ Hj HK HA) as [(k' & Hk' & Ho & Tg)|[Ho|Ho]]; [|contradiction|contradiction].
  assert (Ok : forall m, okTag n (tg m)) by (intros m; apply (otag_ok pl d HC)).
  assert (NL : forall i, tg k <> Link i). { intros i E. pose proof (Ok k) as Hi. rewrite E in Hi. destruct (oseg_link pl d raw HC Er k i tau Hk E) as [Es Hb]. rewrite Es in HK. exact (olink_close pl d HC i tau Hi Hd Hb Htau HK). }
  assert (Of : forall i, tg k = Off i -> trimS pl d i <= len pl i - trimE pl d i) by (intros i E; exact (ooff_range k i tau Hk E Htau HK)).
  destruct (Nat.eq_dec k' k) as [->|Nk].
  - destruct Tg as [E|[E|(i & -> & E)]]; [now apply ooff_self|now apply (oarc_clear k j t Hk E)|now apply (oarc_clear k i t Hk E)].
  - assert (SV : followsAt raw k k' (seg raw k tau)).
    { apply Classical_Prop.NNPP. intros NS. apply ND. exists k, k'. split; [auto|]. split; [auto|]. split; [auto|]. destruct (oat pl d raw HC Er k Hk) as [V0 V1]. destruct (oat pl d raw HC Er k' Hk') as [W0 W1]. rewrite <- V0, <- V1, <- W0, <- W1.
      split; [|split; auto]. apply onSeg_path. exists tau. split; [auto|reflexivity]. }
    destruct SV as [[Ek _]|[Ek _]].
    + pose proof (otag_next pl d raw HC Er k ltac:(lia)) as Fo. rewrite <- Ek in Fo. pose proof (Ok k') as Ok'. destruct (tg k) as [i|i|i] eqn:E; [| |now destruct (NL i)].
      * specialize (Of i eq_refl). cbn [follows] in Fo. destruct (tg k') as [i'|i'|i'] eqn:E'.
        -- destruct Fo as [Hm ->]. destruct Tg as [Tg|[Tg|(? & _ & Tg)]]; try discriminate. injection Tg as <-. apply (ooff_next k i t); auto.
        -- destruct Fo as (Hm & Hb & ->). destruct Tg as [Tg|[Tg|(x & -> & Tg)]]; try discriminate; injection Tg as Tg.
           ++ subst i. now apply ooff_self.
           ++ subst x. apply (ooff_next k i t); auto.
        -- destruct Tg as [Tg|[Tg|(? & _ & Tg)]]; discriminate.
      * destruct Fo as (_ & _ & Q). rewrite Q in Tg. destruct Tg as [Tg|[Tg|(? & _ & Tg)]]; try discriminate. injection Tg as <-. now apply (oarc_clear k i t Hk E).
    + pose proof (otag_next pl d raw HC Er k' ltac:(lia)) as Fo. rewrite <- Ek in Fo. destruct Tg as [Tg|Tg].
      * rewrite Tg in Fo. cbn [follows] in Fo. destruct (tg k) as [i'|i'|i'] eqn:E.
        -- destruct Fo as [Hm ->]. apply (ooff_prev k j t); auto.
        -- destruct Fo as (_ & _ & ->). now apply (oarc_clear k j t Hk E).
        -- now destruct (NL i').
      * assert (Ti : exists i, tg k' = Arc i /\ (i = j \/ j = S i)) by (destruct Tg as [Tg|(i & -> & Tg)]; eauto). clear Tg. destruct Ti as (i & Ti & Hi). rewrite Ti in Fo. destruct Fo as (_ & Hb & Tk).
        destruct Hi as [->| ->]; [apply (ooff_prev k j t); auto|now apply ooff_self].
Qed.

(** ** Locally constant *)
Lemma oinactive_margin j z : (S j < n)%nat -> K z -> ~ activeE pl d j z -> exists e, 0 < e /\ forall z', dist z z' < e -> clearE pl d j z'.
Proof.
  intros Hj HK NA. set (p := along (P j) (P (S j)) z). pose proof (olen_p pl d HC j Hj) as Hl. destruct (clamp_min p (len pl j) 0 ltac:(lra) ltac:(lra)) as [Hc _]. set (c := Rmax 0 (Rmin p (len pl j))) in *.
  assert (Hs : d * d < sqd z (base pl j c)). { destruct (HK j Hj c Hc) as [H|H]; [exact H|]. exfalso. apply NA. exists c. split; [auto|]. now symmetry. }
  assert (Hm : Rabs d < dist z (base pl j c)).
  { destruct (Rlt_le_dec (Rabs d) (dist z (base pl j c))) as [|H]; auto. exfalso. pose proof (dist_nonneg z (base pl j c)). assert (H3 : dist z (base pl j c) * dist z (base pl j c) <= Rabs d * Rabs d) by nra.
    rewrite <- Rabs_mult, (Rabs_right (d * d)) in H3 by (apply Rle_ge, sq_nonneg). rewrite dist_sqd, sqrt_sqrt in H3 by apply sqd_nonneg. lra. }
  exists (dist z (base pl j c) - Rabs d). split; [lra|]. intros z' Hz' l Hl'. apply away_sqd.
  assert (dist z (base pl j c) <= dist z (base pl j l)).
  { rewrite !dist_sqd. apply sqrt_le_1_alt. rewrite !osqd_along by auto. fold p. destruct (clamp_min p (len pl j) l ltac:(lra) Hl') as [_ G]. fold c in G. lra. }
  pose proof (dist_tri z z' (base pl j l)). lra.
Qed.

Lemma ononkeep_open z : ~ K z -> exists e, 0 < e /\ forall z', dist z z' < e -> ~ K z'.
Proof.
  intros NK. assert (Ex : exists p, onPath pl p /\ dist z p < Rabs d).
  { apply Classical_Prop.NNPP. intros N0. apply NK. apply (keepsO_spec pl d HC). intros p Hp. destruct (Rle_lt_dec (Rabs d) (dist z p)); auto. exfalso. apply N0. eauto. }
  destruct Ex as (p & Hp & Hz). exists (Rabs d - dist z p). split; [lra|]. intros z' Hz' HK. pose proof (proj1 (keepsO_spec pl d HC z') HK p Hp). pose proof (dist_tri z' z p). rewrite (dist_sym' z' z) in *. lra.
Qed.

Variable X : vec -> Prop.
Hypothesis (X1 : forall q, openDouble raw q -> X q) (X2 : forall q, K q -> onPath raw q -> onPath dual q -> X q) (X3 : forall q, onPath raw q -> atEnd q -> X q).

Lemma oseg_on_raw k t : (S k < N)%nat -> 0 <= t <= 1 -> onPath raw (seg raw k t).
Proof. intros Hk Ht. apply (oonSeg_onPath raw k); auto; [apply (oraw_open pl d raw HC Er)|apply (oraw2 pl d raw HC Er)|]. apply onSeg_path; exists t; split; [auto|reflexivity]. Qed.

Lemma okeeps_local k tau : (S k < N)%nat -> 0 <= tau <= 1 -> ~ X (seg raw k tau) -> exists a, 0 < a /\ forall t, 0 <= t <= 1 -> Rabs (t - tau) < a -> (K (seg raw k t) <-> K (seg raw k tau)).
Proof.
  intros Hk Htau NX. destruct (Classical_Prop.classic (K (seg raw k tau))) as [HK|NK].
  - assert (M : exists e, 0 < e /\ forall z', dist (seg raw k tau) z' < e -> forall j, (j < n)%nat -> (S j < n)%nat -> (exists t, 0 <= t <= 1 /\ z' = seg raw k t) -> clearE pl d j z').
    { apply (common_margin (fun j z' => (S j < n)%nat -> (exists t, 0 <= t <= 1 /\ z' = seg raw k t) -> clearE pl d j z')). intros j _.
      destruct (Nat.lt_ge_cases (S j) n) as [Hj|Hj]; [|exists 1; split; [lra|intros; lia]].
      destruct (Classical_Prop.classic (activeE pl d j (seg raw k tau))) as [HA|NA].
      - exists 1. split; [lra|]. intros z' _ _ (t & Ht & ->). apply (oactive_ok k tau j t); auto; intros Hq; apply NX; [apply X2|apply X3]; auto; now apply oseg_on_raw.
      - destruct (oinactive_margin j _ Hj HK NA) as (e & He & H). exists e. split; [auto|]. intros z' Hz _ _. auto. }
    destruct M as (e & He & M). destruct (seg_close raw k tau e He) as (a & Ha & Hc). exists a. split; [auto|]. intros t Ht Hcl. split; [auto|]. intros _ j Hj. apply (M (seg raw k t)); auto; [lia|]. eauto.
  - destruct (ononkeep_open _ NK) as (e & He & M). destruct (seg_close raw k tau e He) as (a & Ha & Hc). exists a. split; [auto|]. intros t Ht Hcl. split; [|tauto]. intros HK. exfalso. exact (M _ (Hc t Hcl) HK).
Qed.

Lemma okeeps_const k s t : (S k < N)%nat -> 0 <= s -> s <= t -> t <= 1 -> (forall x, s <= x <= t -> ~ X (seg raw k x)) -> (K (seg raw k s) <-> K (seg raw k t)).
Proof.
  intros Hk H0 Hst H1 NX.
  assert (L : forall x, s <= x <= t -> exists a, 0 < a /\ forall y, s <= y <= t -> Rabs (y - x) < a -> (K (seg raw k y) <-> K (seg raw k x))).
  { intros x Hx. destruct (okeeps_local k x Hk ltac:(lra) (NX x Hx)) as (a & Ha & H). exists a. split; [auto|]. intros y Hy. apply H. lra. }
  split; [exact (pred_connected (fun x => K (seg raw k x)) s t Hst L)|]. intros HT. apply Classical_Prop.NNPP. intros NS.
  apply (pred_connected (fun x => ~ K (seg raw k x)) s t Hst); auto. intros x Hx. destruct (L x Hx) as (a & Ha & H). exists a. split; [auto|]. intros y Hy Hc. rewrite (H y Hy Hc). tauto.
Qed.
End Const.
