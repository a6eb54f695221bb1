(** * The points of the raw offset of a straight closed polyline *)
From Coq Require Import ZArith Reals Lra Lia List Bool Arith.
From Verif Require Import Base Num MathUtils PlineSegment SpatialIndex Polyline Intersects Combine Offset RGeom Spec PropsMath ArcGeom Polar PropsSegment PropsClosest PropsIntr PropsPlineIntr PropsPolyline Turning PropsWinding PropsRegion PropsCoincident PropsSlices PropsPieces PropsTrace PropsOffset PropsOffsetSlices PropsOffsetSegs PropsRawOffset PropsJoins PropsRawStructure PropsRawGeom.
Import ListNotations.
Open Scope R_scope.

Section Points.
Variables (pl : polyline) (d : R) (raw : polyline).
Hypothesis HC : clearRaw pl d.
Hypothesis Er : createRawOffsetPline pl d = Ok raw.
Notation n := (length (vertexes pl)).
Notation P := (pt pl).
Notation E := (edgePt pl d).
Let tags := rawTags pl d.
Definition tagAt (k : nat) : tag := nth k tags (Off 0).

Lemma raw_is : raw = mkPline true (vertexes raw) /\ Forall2 (starts pl d) tags (vertexes raw).
Proof. destruct (raw_structure pl d HC) as (vs & E1 & F). assert (raw = mkPline true vs) by congruence. subst raw. split; [reflexivity|exact F]. Qed.

Lemma raw_closed : isClosed raw = true. Proof. destruct raw_is as [-> _]. reflexivity. Qed.

Lemma raw_len : length (vertexes raw) = length tags.
Proof. destruct raw_is as [_ F]. clear -F. induction F; cbn [length]; auto. Qed.

Lemma off_in j : (j < n)%nat -> In (Off j) tags.
Proof.
  intros Hj. unfold tags, rawTags. destruct j as [|i]; [now left|]. right. apply in_or_app. left. apply in_flat_map. exists i. split; [apply in_seq; lia|]. destruct (cornerTags_last pl d i) as (ts & -> & _). apply in_or_app. right. now left.
Qed.

Lemma arc_in i : (i < n)%nat -> back pl d i < 0 -> In (Arc i) tags.
Proof.
  intros Hi Hb. assert (Em : met pl d i = false). { destruct (met pl d i) eqn:Em; auto. apply (met_true pl d) in Em. lra. }
  assert (Ec : cornerTags pl d i = [Arc i; Off (S i)]) by (unfold cornerTags; now rewrite Em, (proj2 (Rltb_spec _ _) Hb)).
  unfold tags, rawTags. pose proof (n3 pl d HC). destruct (Nat.eq_dec i (n - 1)) as [->|N].
  - right. apply in_or_app. right. rewrite Ec. now left.
  - right. apply in_or_app. left. apply in_flat_map. exists i. split; [apply in_seq; lia|]. rewrite Ec. now left.
Qed.

Lemma tags_pos : (3 <= length tags)%nat.
Proof.
  unfold tags, rawTags. cbn [length]. rewrite app_length. pose proof (n3 pl d HC). assert (G : forall m j, (m <= length (flat_map (cornerTags pl d) (seq j m)))%nat).
  { induction m as [|m IH]; intros j; [lia|]. cbn [seq flat_map]. rewrite app_length. specialize (IH (S j)). assert (1 <= length (cornerTags pl d j))%nat by (destruct (cornerTags_last pl d j) as (ts & -> & _); rewrite app_length; cbn [length]; lia). lia. }
  specialize (G (n - 1)%nat 0%nat). lia.
Qed.

Lemma tag_index T : In T tags -> exists k, (k < length (vertexes raw))%nat /\ tagAt k = T.
Proof. intros H. apply (In_nth _ _ (Off 0)) in H. destruct H as (k & Hk & Ek). exists k. rewrite raw_len. auto. Qed.

(** every segment follows the previous one *)
Lemma tag_next k : (k < length (vertexes raw))%nat -> exists T, follows pl d (tagAt k) T /\
  ((S k < length (vertexes raw))%nat /\ ((k + 1) mod length (vertexes raw))%nat = S k /\ tagAt (S k) = T \/ S k = length (vertexes raw) /\ ((k + 1) mod length (vertexes raw))%nat = 0%nat /\ T = Off n /\ tagAt 0 = Off 0).
Proof.
  rewrite raw_len. intros Hk. pose proof (tags_follow pl d HC k Hk) as F. fold tags in F. cbv zeta in F. eexists. split; [exact F|]. destruct (Nat.eq_dec (S k) (length tags)) as [He|He].
  - right. split; [auto|]. split; [rewrite Nat.add_1_r, He; apply Nat.mod_same; lia|]. split; [|reflexivity]. rewrite app_nth2 by lia. rewrite He, Nat.sub_diag. reflexivity.
  - left. split; [lia|]. split; [rewrite Nat.add_1_r; apply Nat.mod_small; lia|]. rewrite app_nth1 by lia. reflexivity.
Qed.

Lemma off_shift_pt j : startPt pl d (Off (j + n)) = startPt pl d (Off j).
Proof.
  cbn [startPt]. unfold before. replace (j + n + (n - 1))%nat with ((j + (n - 1)) + n)%nat by lia. rewrite (trimC_shift pl d HC). apply (edge_shift pl d HC).
Qed.

Lemma tag_ends k : (k < length (vertexes raw))%nat -> starts pl d (tagAt k) (vert raw k 0) /\ pos (vert raw k 1) = endPt pl d (tagAt k).
Proof.
  intros Hk. destruct raw_is as [_ F].
  assert (Hs : forall i, (i < length (vertexes raw))%nat -> starts pl d (tagAt i) (vert raw i 0)).
  { intros i Hi. unfold vert. rewrite Nat.add_0_r, Nat.mod_small by auto. unfold at_, tagAt. clear - F Hi. revert i Hi. induction F as [|T v ts vs H F IH]; intros i Hi; [cbn in Hi; lia|]. destruct i as [|i]; [exact H|]. cbn [nth]. apply IH. cbn in Hi. lia. }
  split; [now apply Hs|]. destruct (tag_next k Hk) as (T & Fo & HT). rewrite (follows_pt pl d HC _ _ Fo). destruct HT as [(H1 & H2 & <-)|(H1 & H2 & -> & H3)].
  - destruct (Hs (S k) H1) as [<- _]. unfold vert. rewrite H2, Nat.add_0_r, Nat.mod_small by lia. reflexivity.
  - assert (H0 : (0 < length (vertexes raw))%nat) by lia. destruct (Hs 0%nat H0) as [Hp _]. rewrite H3 in Hp. change n with (0 + n)%nat. rewrite off_shift_pt, <- Hp. unfold vert. rewrite H2, Nat.add_0_r, Nat.mod_small by lia. reflexivity.
Qed.

(** the points of the segments *)
Lemma seg_off k j t : (k < length (vertexes raw))%nat -> tagAt k = Off j -> seg raw k t = E j (trimC pl d (before pl j) + t * (len pl j - trimC pl d j - trimC pl d (before pl j))).
Proof.
  intros Hk Et. destruct (tag_ends k Hk) as [[Hp Hl] He]. rewrite Et in *. cbn [endPt startPt] in *. unfold seg. rewrite segPath_line by exact Hl. rewrite Hp, He. unfold lerp, edgePt, offPt. apply vec_eq; cbn [vx vy]; rring.
Qed.

Lemma seg_link k j t : (k < length (vertexes raw))%nat -> tagAt k = Link j -> seg raw k t = lerp (E j (len pl j)) (E (S j) 0) t /\ 0 < back pl d j.
Proof.
  intros Hk Et. destruct (tag_ends k Hk) as [[Hp Hl] He]. rewrite Et in *. cbn [endPt startPt] in *. unfold seg. rewrite segPath_line by exact Hl. rewrite Hp, He. split; [reflexivity|].
  destruct (tag_next k Hk) as (T & Fo & _). rewrite Et in Fo. destruct Fo as (_ & H0 & _). destruct (cr_corners pl d HC j) as [_ [[H _]|[[H _]|[H _]]]]; [|exact H|exact H].
  pose proof eps_pos. pose proof (len_p pl d HC j) as Hl'. unfold len in Hl'. pose proof (Rmult_lt_0_compat _ _ H1 Hl'). unfold back in H0. lra.
Qed.

Lemma seg_arc k j : (k < length (vertexes raw))%nat -> tagAt k = Arc j -> back pl d j < 0 /\ exists th, rot (P (S j)) th (E j (len pl j)) = E (S j) 0 /\ Rabs th < PI /\
  forall t, seg raw k t = rot (P (S j)) (t * th) (E j (len pl j)).
Proof.
  intros Hk Et. pose proof (tag_ends k Hk) as G. rewrite Et in G. destruct G as [[Hp [Hl (th & Hr & Hth & _ & Hsw)]] He]. cbn [endPt startPt] in *. split.
  - destruct (tag_next k Hk) as (T & Fo & _). rewrite Et in Fo. exact (proj1 (proj2 Fo)).
  - exists th. split; [auto|]. split; [apply Hth|]. intros t. unfold seg. rewrite segPath_arc by exact Hl. rewrite Hp, Hsw. f_equal. unfold ctrOf. symmetry. apply ctr_unique; [now apply notLine_ne|]. unfold arcCentre. rewrite Hp, He, Hsw. exact Hr.
Qed.

Hypothesis Hd : d <> 0.

(** every point of the raw offset that keeps its distance is on the offset of an edge or on an arc about a vertex, at distance exactly |d| *)
Lemma on_arc i z : (i < n)%nat -> back pl d i < 0 -> sqd z (P (S i)) = d * d -> len pl i <= along (P i) (P (S i)) z -> along (P (S i)) (P (S (S i))) z <= 0 ->
  exists k, (k < length (vertexes raw))%nat /\ tagAt k = Arc i /\ onSeg (vert raw k 0) (vert raw k 1) z.
Proof.
  intros Hi Hb Hz H1 H2. destruct (tag_index _ (arc_in i Hi Hb)) as (k & Hk & Et). exists k. split; [auto|]. split; [auto|].
  destruct (seg_arc k i Hk Et) as (_ & th & Hr & Hth & Hs). destruct (arc_complete d _ _ _ th (tn pl d HC i) Hd Hr Hth Hb z Hz H1 H2) as (t & Ht & ->).
  apply onSeg_path. exists t. split; [auto|]. symmetry. apply Hs.
Qed.

Lemma on_off j l : (j < n)%nat -> 0 <= l <= len pl j -> keepsD pl d (E j l) -> exists k, (k < length (vertexes raw))%nat /\ tagAt k = Off j /\ onSeg (vert raw k 0) (vert raw k 1) (E j l).
Proof.
  intros Hj Hl K. destruct (tag_index _ (off_in j Hj)) as (k & Hk & Et). exists k. split; [auto|]. split; [auto|].
  assert (Hr : trimC pl d (before pl j) <= l <= len pl j - trimC pl d j).
  { destruct (Rlt_le_dec l (trimC pl d (before pl j))) as [H|H]; [exfalso; apply (trimmed_close pl d HC j l); auto|]. destruct (Rlt_le_dec (len pl j - trimC pl d j) l) as [H'|H']; [exfalso; apply (trimmed_close pl d HC j l); auto|]. lra. }
  apply onSeg_path. set (s0 := trimC pl d (before pl j)) in *. set (s1 := len pl j - trimC pl d j) in *. destruct (Req_dec s0 s1) as [Eq|Ne].
  - exists 0. split; [lra|]. change (E j l = seg raw k 0). rewrite (seg_off k j 0 Hk Et). fold s0 s1. f_equal. lra.
  - exists ((l - s0) / (s1 - s0)). assert (Eq : (l - s0) / (s1 - s0) * (s1 - s0) = l - s0) by (field; lra). split.
    + split; [apply Rmult_le_pos; [lra|apply Rlt_le, Rinv_0_lt_compat; lra]|]. apply (Rmult_le_reg_r (s1 - s0)); lra.
    + change (E j l = seg raw k ((l - s0) / (s1 - s0))). rewrite (seg_off k j _ Hk Et). fold s0 s1. replace (len pl j - trimC pl d j - s0) with (s1 - s0) by reflexivity. rewrite Eq. f_equal. lra.
Qed.
End Points.
