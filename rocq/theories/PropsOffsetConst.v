(** * Along the raw offset, the distance to the input only changes between "kept" and "not kept" at the cut points *)
From Coq Require Import ZArith Reals Lra Lia List Bool Arith.
From Coquelicot Require Import Coquelicot.
From Verif Require Import Base Num MathUtils PlineSegment SpatialIndex Polyline Intersects Combine Offset RGeom Spec PropsMath ArcGeom Polar PropsSegment PropsClosest PropsIntr PropsPlineIntr PropsPolyline Turning PropsWinding PropsRegion PropsCoincident PropsSlices PropsPieces PropsTrace PropsBoolOps PropsOffset PropsOffsetSlices PropsOffsetSegs PropsRawOffset PropsJoins PropsRawStructure PropsRawGeom PropsRawPoints PropsOffsetCuts PropsCover PropsRunPoints PropsJordan.
Import ListNotations.
Open Scope R_scope.

(** ** The foot of a point on an edge *)
Lemma clamp_min (p l m : R) : 0 <= l -> 0 <= m <= l -> let c := Rmax 0 (Rmin p l) in 0 <= c <= l /\ (p - c) * (p - c) <= (p - m) * (p - m).
Proof.
  intros Hl Hm c. unfold c, Rmax, Rmin. destruct (Rle_dec p l); destruct (Rle_dec 0 _); (split; [lra|]); try (replace (p - p) with 0 by ring; pose proof (sq_nonneg (p - m)); lra); nra.
Qed.

(** an edge at distance exactly |d|: the foot is inside the edge or at one of its ends *)
Lemma foot_cases (d p v l m : R) : 0 <= l -> 0 <= m <= l -> (forall x, 0 <= x <= l -> d * d <= (p - x) * (p - x) + v * v) -> (p - m) * (p - m) + v * v = d * d ->
  (0 <= p <= l /\ (v = d \/ v = - d)) \/ (p < 0 /\ (p - 0) * (p - 0) + v * v = d * d) \/ (l < p /\ (p - l) * (p - l) + v * v = d * d).
Proof.
  intros Hl Hm Hx He. destruct (Rlt_le_dec p 0) as [H0|H0]; [|destruct (Rlt_le_dec l p) as [H1|H1]].
  - right. left. split; [auto|]. pose proof (Hx 0 ltac:(lra)). assert ((p - 0) * (p - 0) <= (p - m) * (p - m)) by nra. lra.
  - right. right. split; [auto|]. pose proof (Hx l ltac:(lra)). assert ((p - l) * (p - l) <= (p - m) * (p - m)) by nra. lra.
  - left. split; [lra|]. pose proof (Hx p ltac:(lra)) as H. replace ((p - p) * (p - p)) with 0 in H by ring. pose proof (sq_nonneg (p - m)). assert (Q : (v - d) * (v + d) = 0) by (replace ((v - d) * (v + d)) with (v * v - d * d) by ring; lra). apply Rmult_integral in Q. lra.
Qed.

(** when the closest point is at the end [m0] of the edge, the projection is beyond it *)
Lemma end_high (d p v l : R) : 0 < l -> (forall x, 0 <= x <= l -> d * d <= (p - x) * (p - x) + v * v) -> (p - l) * (p - l) + v * v = d * d -> l <= p.
Proof.
  intros Hl Hx He. destruct (Rle_lt_dec l p) as [|H]; auto. exfalso. pose proof (Hx (Rmax 0 p)) as G. unfold Rmax in G. destruct (Rle_dec 0 p) as [H0|H0].
  - specialize (G ltac:(lra)). replace ((p - p) * (p - p)) with 0 in G by ring. assert (0 < (p - l) * (p - l)) by nra. lra.
  - specialize (G ltac:(lra)). nra.
Qed.

Lemma end_low (d p v l : R) : 0 < l -> (forall x, 0 <= x <= l -> d * d <= (p - x) * (p - x) + v * v) -> (p - 0) * (p - 0) + v * v = d * d -> p <= 0.
Proof.
  intros Hl Hx He. destruct (Rle_lt_dec p 0) as [|H]; auto. exfalso. pose proof (Hx (Rmin l p)) as G. unfold Rmin in G. destruct (Rle_dec l p) as [H0|H0].
  - specialize (G ltac:(lra)). nra.
  - specialize (G ltac:(lra)). replace ((p - p) * (p - p)) with 0 in G by ring. assert (0 < (p - 0) * (p - 0)) by nra. lra.
Qed.

Lemma rawtag_opp_sq (d : R) : - d * - d = d * d. Proof. ring. Qed.

Section Const.
Variables (pl : polyline) (d : R) (raw dual : polyline).
Hypothesis (HC : clearRaw pl d) (HC' : clearRaw pl (- d)) (Hd : d <> 0).
Hypothesis (Er : createRawOffsetPline pl d = Ok raw) (Ed : createRawOffsetPline pl (- d) = Ok dual).
Notation n := (length (vertexes pl)).
Notation N := (length (vertexes raw)).
Notation P := (pt pl).
Notation K := (keepsD pl d).
Notation tg := (tagAt pl d).

Lemma keeps_opp z : K z <-> keepsD pl (- d) z.
Proof. unfold keepsD, clearE. rewrite rawtag_opp_sq. tauto. Qed.

(** the edge before edge j *)
Definition prevN (j : nat) : nat := match j with O => (n - 1)%nat | S i => i end.

Lemma prevN_lt j : (j < n)%nat -> (prevN j < n)%nat.
Proof. pose proof (n3 pl d HC). destruct j; cbn [prevN]; lia. Qed.
Lemma prevN_S j : S (prevN j) = j \/ (j = 0%nat /\ S (prevN j) = n).
Proof. pose proof (n3 pl d HC). destruct j; cbn [prevN]; [right|left]; lia. Qed.
Lemma prevN_P j : P (S (prevN j)) = P j /\ P (S (S (prevN j))) = P (S j).
Proof.
  destruct (prevN_S j) as [E|[-> E]]; rewrite E; [auto|]. change n with (0 + n)%nat. change (S (0 + n)) with (1 + n)%nat. now rewrite !(P_shift pl d HC).
Qed.

Definition activeE (j : nat) (z : vec) : Prop := exists l, 0 <= l <= len pl j /\ sqd z (base pl j l) = d * d.

Definition atCorner (i : nat) (z : vec) : Prop := sqd z (P (S i)) = d * d /\ len pl i <= along (P i) (P (S i)) z /\ along (P (S i)) (P (S (S i))) z <= 0.

Lemma base_end i : base pl i (len pl i) = P (S i).
Proof. unfold base, len. apply (corner_pt _ _ _ (tn pl d HC i)). Qed.
Lemma base_start i : base pl i 0 = P i.
Proof. unfold base, offPt. apply vec_eq; cbn [vx vy]; rring. Qed.
Lemma sqd_along i z l : sqd z (base pl i l) = (along (P i) (P (S i)) z - l) * (along (P i) (P (S i)) z - l) + leftw (P i) (P (S i)) z * leftw (P i) (P (S i)) z.
Proof. apply sqd_base, (P_ne pl d HC). Qed.

Lemma active_cases j z : (j < n)%nat -> K z -> activeE j z ->
  (exists e l, (e = d \/ e = - d) /\ 0 <= l <= len pl j /\ z = edgePt pl e j l) \/ atCorner (prevN j) z \/ atCorner j z.
Proof.
  intros Hj HK (l & Hl & He). assert (HE : forall i x, 0 <= x <= len pl i -> d * d <= (along (P i) (P (S i)) z - x) * (along (P i) (P (S i)) z - x) + leftw (P i) (P (S i)) z * leftw (P i) (P (S i)) z).
  { intros i x Hx. rewrite <- sqd_along. now apply HK. }
  rewrite sqd_along in He. destruct (foot_cases d _ _ (len pl j) l ltac:(lra) Hl (HE j) He) as [[Hp Hv]|[[Hp Hq]|[Hp Hq]]].
  - left. exists (leftw (P j) (P (S j)) z), (along (P j) (P (S j)) z). split; [auto|]. split; [auto|]. apply coords, (P_ne pl d HC).
  - right. left. rewrite <- sqd_along, base_start in Hq. destruct (prevN_P j) as [E1 E2]. unfold atCorner. rewrite E1, E2. split; [auto|]. split; [|lra].
    rewrite <- E1. apply (end_high d _ (leftw (P (prevN j)) (P (S (prevN j))) z)); [apply (len_p pl d HC)|apply HE|]. rewrite <- sqd_along, base_end, E1. exact Hq.
  - right. right. rewrite <- sqd_along, base_end in Hq. split; [auto|]. split; [lra|].
    apply (end_low d _ (leftw (P (S j)) (P (S (S j))) z) (len pl (S j))); [apply (len_p pl d HC)|apply HE|]. rewrite <- sqd_along, base_start. exact Hq.
Qed.

Lemma onSeg_onPath (r : polyline) k z : isClosed r = true -> (2 <= length (vertexes r))%nat -> (k < length (vertexes r))%nat -> onSeg (vert r k 0) (vert r k 1) z -> onPath r z.
Proof. intros Hc H2 Hk Ho. destruct (seg_at r k Hc H2 Hk) as (_ & _ & I). exists (vert r k 0), (vert r k 1). auto. Qed.

Lemma back_opp i : back pl (- d) i = - back pl d i.
Proof. unfold back, setback. unfold Rdiv. ring. Qed.

Lemma back_ne i : back pl d i <> 0.
Proof.
  intros Z. pose proof (setback_eq d _ _ _ (tn pl d HC i)) as E. fold (back pl d i) in E. rewrite Z, Rmult_0_l in E. symmetry in E. apply Rmult_integral in E. destruct E as [E|E]; [contradiction|].
  unfold sinC in E. pose proof (len_p pl d HC i) as L1. pose proof (len_p pl d HC (S i)) as L2. unfold len in L1, L2. pose proof (Rmult_lt_0_compat _ _ L1 L2) as L. apply (tn pl d HC i).
  apply (Rmult_eq_reg_r (/ (dist (P i) (P (S i)) * dist (P (S i)) (P (S (S i)))))); [unfold Rdiv in E; lra|]. apply Rinv_neq_0_compat. lra.
Qed.

Lemma dual_path k z : (k < length (vertexes dual))%nat -> onSeg (vert dual k 0) (vert dual k 1) z -> onPath dual z.
Proof.
  intros Hk Ho. apply (onSeg_onPath dual k); auto; [apply (raw_closed pl (- d) dual HC' Ed)|]. rewrite (raw_len pl (- d) dual HC' Ed). pose proof (tags_pos pl (- d) HC'). lia.
Qed.

(** a point that keeps its distance and is at distance exactly |d| from edge j lies on the raw offset segment of that edge or of one of its ends, or on the raw offset to the other side *)
Lemma complete j z : (j < n)%nat -> K z -> activeE j z ->
  (exists k, (k < N)%nat /\ onSeg (vert raw k 0) (vert raw k 1) z /\ (tg k = Off j \/ tg k = Arc j \/ tg k = Arc (prevN j))) \/ onPath dual z.
Proof.
  intros Hj HK HA. assert (HK' := proj1 (keeps_opp z) HK). assert (Hd' : - d <> 0) by lra.
  assert (Cor : forall i, (i < n)%nat -> atCorner i z -> (exists k, (k < N)%nat /\ onSeg (vert raw k 0) (vert raw k 1) z /\ tg k = Arc i) \/ onPath dual z).
  { intros i Hi (H1 & H2 & H3). destruct (Rlt_le_dec (back pl d i) 0) as [Hb|Hb].
    - left. destruct (on_arc pl d raw HC Er Hd i z Hi Hb H1 H2 H3) as (k & Hk & Ht & Ho). eauto.
    - right. pose proof (back_ne i). destruct (on_arc pl (- d) dual HC' Ed Hd' i z Hi) as (k & Hk & _ & Ho); auto; [rewrite back_opp; lra|rewrite H1; ring|]. now apply (dual_path k). }
  destruct (active_cases j z Hj HK HA) as [(e & l & He & Hl & Ez)|[Ha|Ha]].
  - destruct He as [-> | ->].
    + left. rewrite Ez in HK |- *. destruct (on_off pl d raw HC Er j l Hj Hl HK) as (k & Hk & Ht & Ho). exists k. auto.
    + right. rewrite Ez in HK' |- *. destruct (on_off pl (- d) dual HC' Ed j l Hj Hl HK') as (k & Hk & _ & Ho). now apply (dual_path k).
  - destruct (Cor (prevN j) (prevN_lt j Hj) Ha) as [(k & Hk & Ho & Ht)|Ho]; [left; exists k; auto|right; auto].
  - destruct (Cor j Hj Ha) as [(k & Hk & Ho & Ht)|Ho]; [left; exists k; auto|right; auto].
Qed.

(** ** The segments of the raw offset and the edges they belong to *)
Lemma clearE_0 z : clearE pl d n z <-> clearE pl d 0 z.
Proof. exact (clearE_shift pl d HC 0 z). Qed.

Lemma clearE_eq j i z : (i = j \/ (j = 0%nat /\ i = n)) -> clearE pl d i z <-> clearE pl d j z.
Proof. intros [-> | [-> ->]]; [tauto|apply clearE_0]. Qed.

Lemma arc_clear k i t : (k < N)%nat -> tg k = Arc i -> 0 <= t <= 1 -> clearE pl d i (seg raw k t) /\ clearE pl d (S i) (seg raw k t).
Proof.
  intros Hk Et Ht. destruct (seg_arc pl d raw HC Er k i Hk Et) as (Hb & th & Hr & Hth & Hs). rewrite Hs.
  pose proof (arc_cone d _ _ _ th (tn pl d HC i) Hd Hr Hth Hb t Ht) as [C1 C2]. pose proof (arc_coords d _ _ _ th (tn pl d HC i) Hd Hr (t * th)) as (C0 & _).
  change (edgePt pl d i (len pl i)) with (offPt d (P i) (P (S i)) (dist (P i) (P (S i)))). cbn zeta in C0. set (z := rot (P (S i)) (t * th) _) in *. clearbody z. split; intros l Hl.
  - rewrite sqd_along. rewrite <- (base_end i), sqd_along in C0. rewrite <- C0. fold (len pl i) in C1. set (a := along (P i) (P (S i)) z) in *. assert ((a - len pl i) * (a - len pl i) <= (a - l) * (a - l)) by nra. lra.
  - rewrite sqd_along. rewrite <- (base_start (S i)), sqd_along in C0. rewrite <- C0. set (a := along (P (S i)) (P (S (S i))) z) in *. assert ((a - 0) * (a - 0) <= (a - l) * (a - l)) by nra. lra.
Qed.

(** an offset segment with a point that keeps its distance runs forward *)
Lemma off_range k j t : (k < N)%nat -> tg k = Off j -> 0 <= t <= 1 -> K (seg raw k t) -> trimC pl d (before pl j) <= len pl j - trimC pl d j.
Proof.
  intros Hk Et Ht HK. rewrite (seg_off pl d raw HC Er k j t Hk Et) in HK. destruct (trim_bound pl d HC j) as [B1 _]. destruct (trim_bound pl d HC (before pl j)) as [[B2 _] B3]. rewrite (before_len pl d HC) in B3.
  set (s0 := trimC pl d (before pl j)) in *. set (s1 := trimC pl d j) in *. destruct (Rle_lt_dec s0 (len pl j - s1)) as [|H]; auto. exfalso.
  set (l := s0 + t * (len pl j - s1 - s0)) in *. assert (len pl j - s1 <= l <= s0) by (unfold l; nra). apply (trimmed_close pl d HC j l); [lra| |exact HK]. fold s0 s1. lra.
Qed.

Lemma off_next k j t : (k < N)%nat -> tg k = Off j -> trimC pl d (before pl j) <= len pl j - trimC pl d j -> (met pl d j = true \/ back pl d j < 0) -> 0 <= t <= 1 -> clearE pl d (S j) (seg raw k t).
Proof.
  intros Hk Et Hr Hm Ht. rewrite (seg_off pl d raw HC Er k j t Hk Et). set (s0 := trimC pl d (before pl j)) in *. destruct (trim_bound pl d HC j) as [[B1 _] _].
  match goal with |- clearE _ _ _ (edgePt _ _ _ ?l) => replace l with (len pl j - (len pl j - l)) by ring; assert (Hl : trimC pl d j <= len pl j - l) by nra end. apply (next_away pl d HC); [lra|].
  destruct Hm as [Hm|Hm]; [rewrite <- (trim_met pl d j Hm); exact Hl|lra].
Qed.

Lemma off_prev k j t : (k < N)%nat -> tg k = Off j -> trimC pl d (before pl j) <= len pl j - trimC pl d j -> (met pl d (before pl j) = true \/ back pl d (before pl j) < 0) -> 0 <= t <= 1 -> clearE pl d (before pl j) (seg raw k t).
Proof.
  intros Hk Et Hr Hm Ht. rewrite (seg_off pl d raw HC Er k j t Hk Et). set (s0 := trimC pl d (before pl j)) in *. destruct (trim_bound pl d HC (before pl j)) as [[B1 _] _]. fold s0 in B1.
  match goal with |- clearE _ _ _ (edgePt _ _ _ ?l) => assert (Hl : s0 <= l) by nra end. rewrite <- (before_edge pl d HC). apply (prev_away pl d HC); [lra|].
  destruct Hm as [Hm|Hm]; [rewrite <- (trim_met pl d _ Hm); exact Hl|lra].
Qed.

Lemma off_self k j t : (k < N)%nat -> tg k = Off j -> clearE pl d j (seg raw k t).
Proof. intros Hk Et. rewrite (seg_off pl d raw HC Er k j t Hk Et). apply (self_away pl d HC). Qed.

Definition sameTag (T T' : tag) : Prop := T' = T \/ (T = Off n /\ T' = Off 0).

Lemma tag_after k : (k < N)%nat -> exists T, follows pl d (tg k) T /\ sameTag T (tg ((k + 1) mod N)%nat).
Proof.
  intros Hk. destruct (tag_next pl d raw HC Er k Hk) as (T & Fo & [(_ & E & Q)|(_ & E & Q & Q0)]); exists T; (split; [exact Fo|]); rewrite E; [left; auto|right; auto].
Qed.

Lemma before_prev j : (j = S (j - 1) /\ before pl j = (j - 1 + n)%nat) \/ (j = 0%nat /\ before pl j = (n - 1)%nat).
Proof. pose proof (n3 pl d HC). unfold before. destruct j; [right|left]; lia. Qed.

(** tg k' = Off j and tg k = Off (j+1) (cyclically): clear of the edge before *)
Lemma prev_edge k i j t : (k < N)%nat -> tg k = Off i -> (i = S j \/ (S j = n /\ i = 0%nat)) -> trimC pl d (before pl i) <= len pl i - trimC pl d i -> (met pl d j = true \/ back pl d j < 0) -> 0 <= t <= 1 -> clearE pl d j (seg raw k t).
Proof.
  intros Hk Et Hi Hr Hm Ht. assert (Hb : before pl i = (j + n)%nat \/ before pl i = j). { unfold before. pose proof (n3 pl d HC). destruct Hi as [->|[Q ->]]; [left|right]; lia. }
  assert (Hm' : met pl d (before pl i) = true \/ back pl d (before pl i) < 0). { destruct Hb as [-> | ->]; [|exact Hm]. rewrite (met_shift pl d HC), (back_shift pl d HC). exact Hm. }
  pose proof (off_prev k i t Hk Et Hr Hm' Ht) as G. destruct Hb as [E|E]; rewrite E in G; [now apply (clearE_shift pl d HC)|exact G].
Qed.

(** ** Where the raw offset is at distance |d| from an edge but not cut, it stays clear of that edge along the whole segment *)
Lemma active_ok k tau j t : (k < N)%nat -> 0 <= tau <= 1 -> (j < n)%nat -> 0 <= t <= 1 ->
  K (seg raw k tau) -> ~ doublePoint raw (seg raw k tau) -> ~ onPath dual (seg raw k tau) -> activeE j (seg raw k tau) -> clearE pl d j (seg raw k t).
Proof.
  intros Hk Htau Hj Ht HK ND NC HA. destruct (complete j _ Hj HK HA) as [(k' & Hk' & Ho & Tg)|Ho]; [|contradiction].
  assert (Hn3 := n3 pl d HC).
  assert (NL : forall i, tg k <> Link i). { intros i E. destruct (seg_link pl d raw HC Er k i tau Hk E) as [Es Hb]. rewrite Es in HK. exact (link_close pl d HC i tau Hd Hb Htau HK). }
  assert (Of : forall i, tg k = Off i -> trimC pl d (before pl i) <= len pl i - trimC pl d i) by (intros i E; exact (off_range k i tau Hk E Htau HK)).
  destruct (Nat.eq_dec k' k) as [->|Nk].
  - destruct Tg as [E|[E|E]]; [now apply off_self|now apply (arc_clear k j t Hk E)|]. apply (clearE_eq j (S (prevN j))); [destruct (prevN_S j); auto|]. now apply (arc_clear k (prevN j) t Hk E).
  - assert (SV : sharedVertex raw k k' (seg raw k tau)).
    { apply Classical_Prop.NNPP. intros NS. apply ND. exists k, k'. split; [auto|]. split; [auto|]. split; [auto|]. split; [|split; auto]. apply onSeg_path. exists tau. split; [auto|reflexivity]. }
    assert (PN : forall i, i = prevN j -> S i = j \/ (j = 0%nat /\ S i = n)) by (intros i ->; apply prevN_S).
    destruct SV as [[Ek _]|[Ek _]].
    + destruct (tag_after k Hk) as (T & Fo & ST). rewrite <- Ek in ST. destruct (tg k) as [i|i|i] eqn:E; [| |now destruct (NL i)].
      * specialize (Of i eq_refl). cbn [follows] in Fo. destruct T as [i'|i'|i'].
        -- destruct Fo as [Hm ->]. assert (Q : S i = j \/ (j = 0%nat /\ S i = n)).
           { destruct ST as [ST|[ST1 ST]]; destruct Tg as [Tg|[Tg|Tg]]; rewrite ST in Tg; try discriminate; injection Tg as Tg; [left; auto|right]. injection ST1 as ST1. auto. }
           apply (clearE_eq j (S i)); [auto|]. apply (off_next k i t); auto.
        -- destruct Fo as (Hm & Hb & ->). destruct ST as [ST|[ST _]]; [|discriminate]. destruct Tg as [Tg|[Tg|Tg]]; rewrite ST in Tg; try discriminate; injection Tg as Tg.
           ++ subst i. now apply off_self.
           ++ apply (clearE_eq j (S i)); [now apply PN|]. apply (off_next k i t); auto.
        -- destruct ST as [ST|[ST _]]; [|discriminate]. destruct Tg as [Tg|[Tg|Tg]]; rewrite ST in Tg; discriminate.
      * destruct Fo as (_ & _ & ->). assert (Q : S i = j \/ (j = 0%nat /\ S i = n)).
        { destruct ST as [ST|[ST1 ST]]; destruct Tg as [Tg|[Tg|Tg]]; rewrite ST in Tg; try discriminate; injection Tg as Tg; [left; auto|right]. injection ST1 as ST1. auto. }
        apply (clearE_eq j (S i)); [auto|]. now apply (arc_clear k i t Hk E).
    + destruct (tag_after k' Hk') as (T & Fo & ST). rewrite <- Ek in ST. destruct Tg as [Tg|Tg].
      * rewrite Tg in Fo. cbn [follows] in Fo. destruct T as [i'|i'|i'].
        -- destruct Fo as [Hm ->]. destruct ST as [ST|[ST1 ST]].
           ++ apply (prev_edge k (S j) j t); auto.
           ++ injection ST1 as ST1. apply (prev_edge k 0%nat j t); auto.
        -- destruct Fo as (_ & _ & ->). destruct ST as [ST|[ST _]]; [|discriminate]. now apply (arc_clear k j t Hk ST).
        -- destruct ST as [ST|[ST _]]; [|discriminate]. now destruct (NL i').
      * assert (Ti : exists i, tg k' = Arc i /\ (i = j \/ i = prevN j)) by (destruct Tg as [Tg|Tg]; eauto). clear Tg. destruct Ti as (i & Ti & Hi). rewrite Ti in Fo. destruct Fo as (_ & Hb & ->).
        assert (Tk : exists m, tg k = Off m /\ (m = S i \/ (S i = n /\ m = 0%nat))). { destruct ST as [ST|[ST1 ST]]; [eauto|]. injection ST1 as ST1. exists 0%nat. auto. }
        destruct Tk as (m & Tk & Hm). destruct Hi as [->|Hi].
        -- apply (prev_edge k m j t); auto.
        -- apply (clearE_eq j m); [|now apply off_self]. destruct Hm as [->|[Q ->]]; destruct (PN i Hi) as [|[? ?]]; lia.
Qed.

(** ** Locally constant *)
Lemma seg_close (r : polyline) k t e : 0 < e -> exists a, 0 < a /\ forall s, Rabs (s - t) < a -> dist (seg r k t) (seg r k s) < e.
Proof.
  intros He. destruct (seg_smooth (vert r k 0) (vert r k 1) (seg r k)) as [SX SY]; [intros u; apply segPath_ok|].
  pose proof (path_dist_continuous (seg r k t) (seg r k) t (ex_derive_continuous (V := R_NormedModule) _ _ (SX t)) (ex_derive_continuous (V := R_NormedModule) _ _ (SY t))) as C.
  apply continuity_pt_filterlim in C. destruct (C e He) as (a & Ha & Hc). exists a. split; [auto|]. intros s' Hcl.
  destruct (Req_dec s' t) as [->|Ns]; [rewrite dist_self; auto|]. specialize (Hc s' (conj (conj I (fun e => Ns (eq_sym e))) Hcl)). cbn in Hc. unfold R_dist in Hc. rewrite dist_self, Rminus_0_r in Hc. eapply Rle_lt_trans; [apply Rle_abs|exact Hc].
Qed.

Lemma inactive_margin j z : K z -> ~ activeE j z -> exists e, 0 < e /\ forall z', dist z z' < e -> clearE pl d j z'.
Proof.
  intros HK NA. set (p := along (P j) (P (S j)) z). pose proof (len_p pl d HC j) as Hl. destruct (clamp_min p (len pl j) 0 ltac:(lra) ltac:(lra)) as [Hc _]. set (c := Rmax 0 (Rmin p (len pl j))) in *.
  assert (Hs : d * d < sqd z (base pl j c)). { destruct (HK j c Hc) as [H|H]; [exact H|]. exfalso. apply NA. exists c. split; [auto|]. now symmetry. }
  assert (Hm : Rabs d < dist z (base pl j c)). { destruct (Rlt_le_dec (Rabs d) (dist z (base pl j c))) as [|H]; auto. exfalso. destruct (proj1 (away_sqd (dist z (base pl j c)) z (base pl j c))); [rewrite Rabs_right; [lra|apply Rle_ge, dist_nonneg]| |].
    - pose proof (dist_nonneg z (base pl j c)). pose proof (Rabs_pos d). assert (dist z (base pl j c) * dist z (base pl j c) <= Rabs d * Rabs d) by nra. rewrite <- Rabs_mult, (Rabs_right (d * d)) in H3 by (apply Rle_ge, sq_nonneg). 
      rewrite dist_sqd, sqrt_sqrt in H3 by apply sqd_nonneg. lra.
    - pose proof (dist_nonneg z (base pl j c)). pose proof (Rabs_pos d). assert (dist z (base pl j c) * dist z (base pl j c) <= Rabs d * Rabs d) by nra. rewrite <- Rabs_mult, (Rabs_right (d * d)) in H3 by (apply Rle_ge, sq_nonneg). 
      rewrite dist_sqd, sqrt_sqrt in H3 by apply sqd_nonneg. lra. }
  exists (dist z (base pl j c) - Rabs d). split; [lra|]. intros z' Hz' l Hl'. apply away_sqd.
  assert (dist z (base pl j c) <= dist z (base pl j l)).
  { rewrite !dist_sqd. apply sqrt_le_1_alt. rewrite !sqd_along. fold p. destruct (clamp_min p (len pl j) l ltac:(lra) Hl') as [_ G]. fold c in G. lra. }
  pose proof (dist_tri z z' (base pl j l)). lra.
Qed.

Lemma nonkeep_open z : ~ K z -> exists e, 0 < e /\ forall z', dist z z' < e -> ~ K z'.
Proof.
  intros NK. assert (Ex : exists p, onPath pl p /\ dist z p < Rabs d).
  { apply Classical_Prop.NNPP. intros N. apply NK. apply (keepsD_spec pl d HC). intros p Hp. destruct (Rle_lt_dec (Rabs d) (dist z p)); auto. exfalso. apply N. eauto. }
  destruct Ex as (p & Hp & Hz). exists (Rabs d - dist z p). split; [lra|]. intros z' Hz' HK. pose proof (proj1 (keepsD_spec pl d HC z') HK p Hp). pose proof (dist_tri z' z p). rewrite (dist_sym' z' z) in *. lra.
Qed.

Lemma keeps_finite z : (forall j, (j < n)%nat -> clearE pl d j z) -> K z.
Proof.
  intros H. apply (keepsD_spec pl d HC). intros p Hp. apply (onPath_base pl d HC) in Hp. destruct Hp as (j & l & Hj & Hl & ->). apply away_sqd. now apply H.
Qed.

Lemma common_margin (Q : nat -> vec -> Prop) z m : (forall j, (j < m)%nat -> exists e, 0 < e /\ forall z', dist z z' < e -> Q j z') -> exists e, 0 < e /\ forall z', dist z z' < e -> forall j, (j < m)%nat -> Q j z'.
Proof.
  induction m as [|m IH]; intros H; [exists 1; split; [lra|intros; lia]|]. destruct IH as (e1 & H1 & Q1); [intros; apply H; lia|]. destruct (H m ltac:(lia)) as (e2 & H2 & Q2).
  exists (Rmin e1 e2). split; [now apply Rmin_glb_lt|]. intros z' Hz j Hj. pose proof (Rmin_l e1 e2). pose proof (Rmin_r e1 e2). destruct (Nat.eq_dec j m) as [->|]; [apply Q2; lra|]. apply Q1; [lra|lia].
Qed.

Variable X : vec -> Prop.
Hypothesis (X1 : forall q, doublePoint raw q -> X q) (X2 : forall q, K q -> onPath raw q -> onPath dual q -> X q).

Lemma seg_on_raw k t : (k < N)%nat -> 0 <= t <= 1 -> onPath raw (seg raw k t).
Proof.
  intros Hk Ht. apply (onSeg_onPath raw k); auto; [apply (raw_closed pl d raw HC Er)| |apply onSeg_path; exists t; split; [auto|reflexivity]].
  rewrite (raw_len pl d raw HC Er). pose proof (tags_pos pl d HC). lia.
Qed.

Lemma keeps_local k tau : (k < N)%nat -> 0 <= tau <= 1 -> ~ X (seg raw k tau) -> exists a, 0 < a /\ forall t, 0 <= t <= 1 -> Rabs (t - tau) < a -> (K (seg raw k t) <-> K (seg raw k tau)).
Proof.
  intros Hk Htau NX. destruct (Classical_Prop.classic (K (seg raw k tau))) as [HK|NK].
  - assert (M : exists e, 0 < e /\ forall z', dist (seg raw k tau) z' < e -> forall j, (j < n)%nat -> ((exists t, 0 <= t <= 1 /\ z' = seg raw k t) -> clearE pl d j z')).
    { apply (common_margin (fun j z' => (exists t, 0 <= t <= 1 /\ z' = seg raw k t) -> clearE pl d j z')). intros j Hj.
      destruct (Classical_Prop.classic (activeE j (seg raw k tau))) as [HA|NA].
      - exists 1. split; [lra|]. intros z' _ (t & Ht & ->). apply (active_ok k tau j t); auto. intros Hq. apply NX, X2; auto. now apply seg_on_raw.
      - destruct (inactive_margin j _ HK NA) as (e & He & H). exists e. split; [auto|]. intros z' Hz _. auto. }
    destruct M as (e & He & M). destruct (seg_close raw k tau e He) as (a & Ha & Hc). exists a. split; [auto|]. intros t Ht Hcl. split; [auto|]. intros _. apply keeps_finite. intros j Hj. apply (M (seg raw k t)); auto. eauto.
  - destruct (nonkeep_open _ NK) as (e & He & M). destruct (seg_close raw k tau e He) as (a & Ha & Hc). exists a. split; [auto|]. intros t Ht Hcl. split; [|tauto]. intros HK. exfalso. exact (M _ (Hc t Hcl) HK).
Qed.

Lemma keeps_const k s t : (k < N)%nat -> 0 <= s -> s <= t -> t <= 1 -> (forall x, s <= x <= t -> ~ X (seg raw k x)) -> (K (seg raw k s) <-> K (seg raw k t)).
Proof.
  intros Hk H0 Hst H1 NX.
  assert (L : forall x, s <= x <= t -> exists a, 0 < a /\ forall y, s <= y <= t -> Rabs (y - x) < a -> (K (seg raw k y) <-> K (seg raw k x))).
  { intros x Hx. destruct (keeps_local k x Hk ltac:(lra) (NX x Hx)) as (a & Ha & H). exists a. split; [auto|]. intros y Hy. apply H. lra. }
  split; [exact (pred_connected (fun x => K (seg raw k x)) s t Hst L)|]. intros HT. apply Classical_Prop.NNPP. intros NS.
  apply (pred_connected (fun x => ~ K (seg raw k x)) s t Hst); auto. intros x Hx. destruct (L x Hx) as (a & Ha & H). exists a. split; [auto|]. intros y Hy Hc. rewrite (H y Hy Hc). tauto.
Qed.
End Const.
