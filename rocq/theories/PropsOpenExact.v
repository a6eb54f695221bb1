(** * C65: the offset of a straight open polyline consists exactly of the points at the offset distance, apart from the circles about its ends *)
From Coq Require Import ZArith Reals Lra Lia List Bool Arith Permutation Sorted.
From Verif Require Import Base Num MathUtils PlineSegment SpatialIndex Polyline Intersects Combine Offset StdLaws RGeom Spec PropsMath ArcGeom Polar PropsSegment PropsClosest PropsIntr PropsPlineIntr PropsPolyline Turning PropsWinding PropsRegion PropsPlineIndex PropsExtents PropsCoincident PropsSlices PropsStitch PropsCombine PropsPieces PropsTrace PropsBoolOps PropsOffset PropsOffsetSlices PropsOffsetSegs PropsRawOffset PropsJoins PropsRawStructure PropsRawGeom PropsRawPoints PropsParallelTotal PropsOffsetRuns PropsOffsetCuts PropsCover PropsRunPoints PropsBalance PropsJordan PropsOffsetParts PropsOffsetResult PropsOffsetConst PropsOffsetExact PropsOpenTrace PropsOpenRuns PropsOpenParts PropsOpenCuts PropsOpenResult PropsOpenRaw PropsOpenPoints PropsOpenConst.
Import ListNotations.
Open Scope R_scope.

(** ** Specification *)
(** the point at which each stretch is finally judged is clear of the input or closer to it than the tolerance of the test: none falls into the band
    between |d| - 2e-4 and |d| *)
Definition decisiveOpen (pl raw : polyline) (d : R) (X : vec -> Prop) : Prop := forall l, partOpen raw X l ->
  clearBy pl (Rabs d) (lastMid l) \/ exists q, onPath pl q /\ dist (lastMid l) q <= Rabs d - 2 / 10000.

(** the segment intersection test reports no intersection of the input with a piece of a segment of the raw offset, at least 1e-5 long, that keeps its distance from the input *)
Definition noFalseHitsOpen (pl raw : polyline) (d : R) : Prop := forall k a b v w u1 u2, (S k < length (vertexes raw))%nat -> 0 <= a -> a < b -> b <= 1 ->
  piece (vert raw k 0) (vert raw k 1) a b v w -> Rabs (bulge v) <= 1 -> far (pos v) (pos w) -> (forall t, a <= t <= b -> clearBy pl (Rabs d) (seg raw k t)) -> In (u1, u2) (pathSegs pl) -> intrPlineSegs v w u1 u2 = NoIntersect.

(** ** Proofs *)
Section Runs.
Variables (raw : polyline) (X : vec -> Prop).
Hypothesis (H2 : (2 <= length (vertexes raw))%nat) (Hop : isClosed raw = false) (Hsm : smallBulges raw) (Hsp : spaced raw X).
Notation N := (length (vertexes raw)).

Lemma rfar k : (S k < N)%nat -> far (pos (vert raw k 0)) (pos (vert raw k 1)).
Proof. intros Hk. apply (proj1 Hsp). apply (seg_at_open raw H2 Hop k Hk). Qed.

Lemma rinj k s t : (S k < N)%nat -> 0 <= s <= 1 -> 0 <= t <= 1 -> seg raw k s = seg raw k t -> s = t.
Proof. intros Hk Hs Ht E. apply (segPath_inj (vert raw k 0) (vert raw k 1)); auto; [now apply vert_small|now apply far_ne, rfar]. Qed.

Lemma lastMid_runO k a d b l : (S (k + d) < N)%nat -> run raw k a d b l -> lastMid l = runMid raw k a d b.
Proof.
  intros Hk (Ha & Hb & R). destruct d as [|d'].
  - rewrite Nat.add_0_r in Hk. destruct R as (u & w & -> & Hab & P & Bu). change [u; w] with ([] ++ [u; w]). rewrite lastMid_snoc.
    assert (Ne : pos u <> pos w). { rewrite (piece_start _ _ _ _ _ _ P), (piece_end _ _ _ _ _ _ P). intros E. apply (rinj k) in E; auto; lra. }
    rewrite (segPath_unique _ _ _ _ (C16_segMidpoint u w Bu (fun _ => Ne))), (P (1 / 2)). unfold runMid, seg. f_equal. field.
  - destruct R as (w & us & e & -> & Ha1 & Hb0 & Pw & Bw & P & Bu & Eu). rewrite app_assoc, lastMid_snoc.
    assert (EP : forall t, segPath (vert raw k (S d')) (vert raw k (S (S d'))) t = seg raw (k + S d') t) by (intros t; unfold seg; now rewrite !vert_shift, Nat.add_0_r, Nat.add_1_r).
    assert (Ne : pos us <> pos e). { rewrite (piece_start _ _ _ _ _ _ P), (piece_end _ _ _ _ _ _ P), !EP. intros E. apply (rinj (k + S d')) in E; auto; lra. }
    rewrite (segPath_unique _ _ _ _ (C16_segMidpoint us e Bu (fun _ => Ne))), (P (1 / 2)), EP. unfold runMid. f_equal. field.
Qed.

(** every segment of a stretch is a piece of a segment of the raw offset *)
Lemma run_piece_ofO (Y : vec -> Prop) l x y : (forall q, Y q <-> X q \/ q = firstPos raw \/ q = lastPos raw) -> (forall q q', Y q -> Y q' -> q <> q' -> wellApart q q') -> partOpen raw X l -> In (x, y) (segsOf l) ->
  exists k' s t, (S k' < N)%nat /\ 0 <= s /\ s < t /\ t <= 1 /\ piece (vert raw k' 0) (vert raw k' 1) s t x y /\ Rabs (bulge x) <= 1 /\ far (pos x) (pos y).
Proof.
  intros HY Hap (k & a & d & b & Hk & (Ha & Hb & R) & _ & Xa & Xb) Hin.
  assert (FX : forall q j e, X q -> far q (pos (vert raw j e))) by (intros q j e Hq; apply (proj1 (proj2 Hsp)); [apply vert_in; auto|auto]).
  assert (V : forall k, (S k < N)%nat -> vert raw k 0 = at_ raw k /\ vert raw k 1 = at_ raw (S k)). { intros k0 Hk0. destruct (seg_at_open raw H2 Hop k0 Hk0) as (A & B & _). auto. }
  assert (EP : forall j t, seg raw (k + j) t = segPath (vert raw k j) (vert raw k (S j)) t) by (intros j t; unfold seg; now rewrite !vert_shift, Nat.add_0_r, Nat.add_1_r).
  assert (Q : forall j s t, (j <= d)%nat -> 0 <= s -> s < t -> t <= 1 -> piece (vert raw k j) (vert raw k (S j)) s t x y -> Rabs (bulge x) <= 1 -> far (pos x) (pos y) ->
    exists k' s t, (S k' < N)%nat /\ 0 <= s /\ s < t /\ t <= 1 /\ piece (vert raw k' 0) (vert raw k' 1) s t x y /\ Rabs (bulge x) <= 1 /\ far (pos x) (pos y)).
  { intros j s t Hj H1 H3 H4 Hp Hbu Hf. exists (k + j)%nat, s, t. split; [lia|]. split; [auto|]. split; [auto|]. split; [auto|]. split; [|auto].
    intros u. change (segPath x y u = seg raw (k + j) (s + u * (t - s))). rewrite (Hp u), EP. reflexivity. }
  assert (Ya : Y (seg raw k a)).
  { apply HY. destruct Xa as [Xa|[-> ->]]; [auto|right; left]. unfold seg. rewrite segPath_0. destruct (V 0%nat ltac:(lia)) as [-> _]. reflexivity. }
  assert (Yb : Y (seg raw (k + d) b)).
  { apply HY. destruct Xb as [Xb|[Eb ->]]; [auto|right; right]. unfold seg. rewrite segPath_1. destruct (V (k + d)%nat ltac:(lia)) as [_ ->]. unfold lastPos. do 2 f_equal. lia. }
  destruct d as [|d'].
  - rewrite Nat.add_0_r in *. destruct R as (u & w & -> & Hab & P & Bu). destruct Hin as [E|[]]. injection E as <- <-. apply (Q 0%nat a b); auto; [lra|lra|].
    rewrite (piece_start _ _ _ _ _ _ P), (piece_end _ _ _ _ _ _ P). apply apart_far. apply Hap; auto.
    intros E. apply (rinj k) in E; auto. lra.
  - destruct R as (w & us & e & -> & Ha1 & Hb0 & Pw & Bw & P & Bu & Eu). cbn [app segsOf] in Hin. rewrite openSegs_snoc2 in Hin.
    assert (FV : forall j, (j <= S d')%nat -> far (pos (vert raw k j)) (pos (vert raw k (S j)))). { intros j Hj. pose proof (rfar (k + j) ltac:(lia)) as G. now rewrite !vert_shift, Nat.add_0_r, Nat.add_1_r in G. }
    assert (Eu' : pos us = pos (vert raw k (1 + d'))) by (rewrite Eu; reflexivity). apply in_app_or in Hin. destruct Hin as [H|[E|[]]].
    + apply (openSegs_verts raw H2 k d' 1 w us Eu') in H. destruct H as [[-> Ey]|(j & Hj & -> & Ey)].
      * apply (Q 0%nat a 1); auto; [lia|lra|lra| |].
        -- intros u. rewrite (segPath_end w y (vert raw k 1)) by auto. apply Pw.
        -- rewrite Ey, (piece_start _ _ _ _ _ _ Pw). destruct Xa as [Xa|[-> ->]]; [apply FX; exact Xa|]. rewrite segPath_0. apply (FV 0%nat). lia.
      * apply (Q j 0 1); try lra; [lia| |now apply vert_small|rewrite Ey; apply FV; lia]. intros u. rewrite (segPath_end _ y (vert raw k (S j))) by auto. f_equal. ring.
    + injection E as <- <-. apply (Q (S d') 0 b); auto; [lra|lra|]. rewrite Eu. rewrite (piece_end _ _ _ _ _ _ P). destruct Xb as [Xb|[Eb ->]].
      * apply far_sym. apply FX. rewrite <- EP. exact Xb.
      * rewrite segPath_1. apply (FV (S d')). lia.
Qed.
End Runs.

Lemma oraw_end_dist pl d raw : clearOpen pl d -> createRawOffsetPline pl d = Ok raw -> dist (firstPos pl) (firstPos raw) = Rabs d /\ dist (lastPos pl) (lastPos raw) = Rabs d.
Proof.
  intros HC Er. pose proof (o2 pl d HC) as H2. assert (Sq : forall p z, sqd z p = d * d -> dist p z = Rabs d). { intros p z E. rewrite dist_sym', dist_sqd, E. replace (d * d) with (Rsqr d) by reflexivity. apply sqrt_Rsqr_abs. }
  assert (E0 : firstPos pl = base pl 0 0). { rewrite base_start. unfold pt, vert, firstPos. rewrite Nat.add_0_l, Nat.mod_small by lia. reflexivity. }
  assert (E1 : lastPos pl = base pl (length (vertexes pl) - 2) (len pl (length (vertexes pl) - 2))).
  { rewrite (obase_end pl d HC) by lia. unfold pt, vert, lastPos. rewrite Nat.add_0_r, Nat.mod_small by lia. do 2 f_equal. lia. }
  split; apply Sq.
  - unfold firstPos at 1. rewrite (ofirst pl d raw HC Er), E0. unfold edgePt, base. rewrite sqd_off by (apply (oP_ne pl d HC); lia). ring.
  - unfold lastPos at 1. rewrite (olast pl d raw HC Er), E1. unfold edgePt, base. rewrite sqd_off by (apply (oP_ne pl d HC); lia). ring.
Qed.

Lemma atEnd_dist pl d z : clearOpen pl d -> (atEnd pl d z <-> dist (firstPos pl) z = Rabs d \/ dist (lastPos pl) z = Rabs d).
Proof.
  intros HC. pose proof (o2 pl d HC) as H2. unfold atEnd.
  assert (E0 : pt pl 0 = firstPos pl) by (unfold pt, vert, firstPos; rewrite Nat.add_0_l, Nat.mod_small by lia; reflexivity).
  assert (E1 : pt pl (length (vertexes pl) - 1) = lastPos pl) by (unfold pt, vert, lastPos; rewrite Nat.add_0_r, Nat.mod_small by lia; reflexivity).
  rewrite E0, E1. assert (Sq : forall p, sqd z p = d * d <-> dist p z = Rabs d).
  { intros p. rewrite dist_sym', dist_sqd. split; intros E; [rewrite E; replace (d * d) with (Rsqr d) by reflexivity; apply sqrt_Rsqr_abs|].
    rewrite <- (sqrt_sqrt (sqd z p)) by apply sqd_nonneg. rewrite E, <- Rabs_mult. apply Rabs_right, Rle_ge, sq_nonneg. }
  now rewrite !Sq.
Qed.

Section Exact.
Variables (pl : polyline) (d : R) (raw dual : polyline).
Hypothesis (HC : clearOpen pl d) (HC' : clearOpen pl (- d)) (Hd : d <> 0).
Hypothesis (Er : createRawOffsetPline pl d = Ok raw) (Ed : createRawOffsetPline pl (- d) = Ok dual).
Hypothesis OP : openPosition pl d raw dual.
Notation X := (cutPointOpen pl d raw dual).
Notation K := (keepsO pl d).
Notation N := (length (vertexes raw)).
Definition cutOrEnd (q : vec) : Prop := X q \/ q = firstPos raw \/ q = lastPos raw.
Notation Y := cutOrEnd.

Local Notation H2 := (oraw2 pl d raw HC Er).
Local Notation Hop := (oraw_open pl d raw HC Er).
Local Notation Hsm := (oo_arcs _ _ _ _ OP).
Local Notation Hsp := (oo_spaced _ _ _ _ OP).

Lemma Y1 q : openDouble raw q -> Y q.
Proof.
  intros D. left. split; [|split; [auto|]]; [|apply (oo_ends _ _ _ _ OP); auto]. destruct D as (i & j & Hi & _ & _ & O & _). destruct (oat pl d raw HC Er i Hi) as [A B]. rewrite <- A, <- B in O. apply (oonSeg_onPath raw i); auto; [exact Hop|exact H2].
Qed.
Lemma Y2 q : K q -> onPath raw q -> onPath dual q -> Y q.
Proof. intros _ O1 O2. left. split; [auto|]. split; [right; left; split; auto|]. apply (oo_ends _ _ _ _ OP). right. split; auto. Qed.
Lemma Y3 q : onPath raw q -> atEnd pl d q -> Y q.
Proof.
  intros O A. apply (atEnd_dist pl d q HC) in A. destruct (Classical_Prop.classic (q = firstPos raw)) as [E|N1]; [right; auto|]. destruct (Classical_Prop.classic (q = lastPos raw)) as [E|N2]; [right; auto|]. left. split; [auto|]. split; [|auto]. tauto.
Qed.

(** the ends of the raw offset are not passed again *)
Lemma at_first k t : (S k < N)%nat -> 0 <= t <= 1 -> seg raw k t = firstPos raw -> k = 0%nat /\ t = 0.
Proof.
  intros Hk Ht E. pose proof H2 as Hn. assert (E0 : firstPos raw = seg raw 0 0). { unfold seg. rewrite segPath_0. destruct (oat pl d raw HC Er 0%nat ltac:(lia)) as [-> _]. reflexivity. }
  destruct (Nat.eq_dec k 0) as [->|Nk]; [split; [auto|]; rewrite E0 in E; apply (rinj raw X H2 Hop Hsm Hsp 0%nat) in E; auto; lra|]. exfalso.
  destruct (oat pl d raw HC Er k Hk) as [A B]. destruct (oat pl d raw HC Er 0%nat ltac:(lia)) as [A0 B0].
  assert (D : openDouble raw (firstPos raw)).
  { exists 0%nat, k. split; [lia|]. split; [auto|]. split; [auto|]. rewrite <- A, <- B, <- A0, <- B0. split; [apply onSeg_path; exists 0; split; [lra|exact E0]|]. split; [apply onSeg_path; exists t; split; [auto|now rewrite <- E]|].
    intros [[Ek Ep]|[Ek _]]; [|lia]. subst k. rewrite <- B0 in Ep. pose proof (rfar raw X H2 Hop Hsp 0%nat ltac:(lia)) as F. apply far_ne in F. apply F. rewrite <- Ep, E0. unfold seg. now rewrite segPath_0. }
  destruct (oo_ends _ _ _ _ OP _ (or_introl D)) as [G _]. now apply G.
Qed.

Lemma at_last k t : (S k < N)%nat -> 0 <= t <= 1 -> seg raw k t = lastPos raw -> S (S k) = N /\ t = 1.
Proof.
  intros Hk Ht E. pose proof H2 as Hn. assert (Hk0 : (S (N - 2) < N)%nat) by lia. destruct (oat pl d raw HC Er (N - 2)%nat Hk0) as [A0 B0].
  assert (E0 : lastPos raw = seg raw (N - 2) 1). { unfold seg. rewrite segPath_1, B0. unfold lastPos. do 2 f_equal. lia. }
  destruct (Nat.eq_dec k (N - 2)) as [->|Nk]; [split; [lia|]; rewrite E0 in E; apply (rinj raw X H2 Hop Hsm Hsp (N - 2)%nat) in E; auto; lra|]. exfalso.
  destruct (oat pl d raw HC Er k Hk) as [A B].
  assert (D : openDouble raw (lastPos raw)).
  { exists k, (N - 2)%nat. split; [lia|]. split; [auto|]. split; [auto|]. rewrite <- A, <- B, <- A0, <- B0. split; [apply onSeg_path; exists t; split; [auto|now rewrite <- E]|]. split; [apply onSeg_path; exists 1; split; [lra|exact E0]|].
    intros [[Ek Ep]|[Ek _]]; [|lia]. rewrite <- A0 in Ep. pose proof (rfar raw X H2 Hop Hsp (N - 2)%nat Hk0) as F. apply far_ne in F. apply F. rewrite <- Ep, E0. unfold seg. now rewrite segPath_1. }
  destruct (oo_ends _ _ _ _ OP _ (or_introl D)) as [_ G]. now apply G.
Qed.

Lemma clear_ends k a e b : (S (k + e) < N)%nat -> 0 <= a <= 1 -> 0 <= b <= 1 -> clearOf raw X k a e b -> clearOf raw Y k a e b.
Proof.
  intros Hk Ha Hb C. assert (G : forall k t, (S k < N)%nat -> 0 <= t <= 1 -> ~ X (seg raw k t) -> ~ (k = 0%nat /\ t = 0) -> ~ (S (S k) = N /\ t = 1) -> ~ Y (seg raw k t)).
  { intros k0 t Hk0 Ht NX N1 N2 [H|[H|H]]; [auto|apply N1; now apply at_first|apply N2; now apply at_last]. }
  destruct e as [|e']; cbn [clearOf] in *.
  - rewrite Nat.add_0_r in Hk. intros t Ht. apply G; auto; lra.
  - destruct C as (C1 & C2 & C3). split; [|split].
    + intros t Ht. apply G; auto; [lia|lra|lra|lia].
    + intros e t He Ht. apply G; auto; lia.
    + intros t Ht. apply G; auto; [lra|lia|lra].
Qed.

Lemma okeeps_loc k s t : (S k < N)%nat -> 0 <= s -> s <= t -> t <= 1 -> (forall x, s <= x <= t -> ~ Y (seg raw k x)) -> (K (seg raw k s) <-> K (seg raw k t)).
Proof. intros Hk H0 Hst H1 NX. apply (okeeps_const pl d raw dual HC HC' Hd Er Ed Y Y1 Y2 Y3); auto. Qed.

(** a stretch keeps its distance everywhere if it does so at its test point; otherwise nowhere except at its ends *)
Lemma opart_keeps l q : partOpen raw X l -> onPath (mkPline false l) q -> ~ Y q -> (K q <-> K (lastMid l)).
Proof.
  intros (k & a & e & b & Hk & R & C & _) O NX. rewrite (lastMid_runO raw X H2 Hop Hsm Hsp k a e b l Hk R).
  apply (run_onRun raw k a e b l q H2 R) in O. destruct R as (Ha & Hb & R). apply (run_const raw Y K (fun k => (S k < N)%nat)); auto.
  - intros k0 s t. apply okeeps_loc.
  - intros e0 He. lia.
  - intros ->. destruct R as (? & ? & _ & H & _). exact H.
  - intros H. destruct e; [lia|]. destruct R as (? & ? & ? & _ & A & B & _). auto.
  - now apply clear_ends.
Qed.

Lemma okeeps_closed (z : vec) : (forall e, 0 < e -> exists z', dist z z' < e /\ K z') -> K z.
Proof.
  intros H. apply Classical_Prop.NNPP. intros NK. destruct (ononkeep_open pl d HC z NK) as (e & He & G). destruct (H e He) as (z' & Hz & HK). exact (G z' Hz HK).
Qed.

Lemma opart_all l q : partOpen raw X l -> onPath (mkPline false l) q -> K (lastMid l) -> K q.
Proof.
  intros Hp O HM. destruct (Classical_Prop.classic (Y q)) as [Xq|NX]; [|now apply (opart_keeps l q Hp O NX)].
  pose proof Hp as (k & a & e & b & Hk & R & C & _). assert (Hn := H2).
  assert (On : forall y, onRun raw k a e b y -> ~ Y y -> K y). { intros y Oy NY. apply (opart_keeps l y Hp); auto. now apply (run_onRun raw k a e b l y Hn R). }
  pose proof O as O'. apply (run_onRun raw k a e b l q Hn R) in O'. destruct R as (Ha & Hb & R). apply clear_ends in C; auto. apply okeeps_closed. intros eps Heps. destruct e as [|e'].
  - destruct R as (_ & _ & _ & Hab & _). cbn [onRun clearOf] in *. destruct O' as (t & Ht & ->). destruct (seg_close raw k t eps Heps) as (r & Hr & Cl).
    assert (Hs : exists s, a < s < b /\ Rabs (s - t) < r).
    { destruct (Rle_lt_dec t a) as [L|L].
      - exists (a + Rmin (r / 2) ((b - a) / 2)). pose proof (Rmin_l (r / 2) ((b - a) / 2)). pose proof (Rmin_r (r / 2) ((b - a) / 2)). assert (0 < Rmin (r / 2) ((b - a) / 2)) by (apply Rmin_glb_lt; lra). split; [lra|]. rewrite Rabs_right; lra.
      - exists (t - Rmin (r / 2) ((t - a) / 2)). pose proof (Rmin_l (r / 2) ((t - a) / 2)). pose proof (Rmin_r (r / 2) ((t - a) / 2)). assert (0 < Rmin (r / 2) ((t - a) / 2)) by (apply Rmin_glb_lt; lra). split; [lra|]. rewrite Rabs_left; lra. }
    destruct Hs as (s & Hs & Hc). exists (seg raw k s). split; [now apply Cl|]. apply On; [exists s; split; [lra|reflexivity]|]. apply C. lra.
  - destruct R as (_ & _ & _ & _ & Ha1 & Hb0 & _). cbn [onRun clearOf] in *. destruct C as (C1 & C2 & C3). destruct O' as [(t & Ht & ->)|[(e & t & Hee & Ht & ->)|(t & Ht & ->)]].
    + destruct (Req_dec t a) as [->|]; [|exfalso; apply (C1 t); [lra|exact Xq]]. destruct (seg_close raw k a eps Heps) as (r & Hr & Cl).
      pose proof (Rmin_l (r / 2) ((1 - a) / 2)). pose proof (Rmin_r (r / 2) ((1 - a) / 2)). assert (0 < Rmin (r / 2) ((1 - a) / 2)) by (apply Rmin_glb_lt; lra).
      exists (seg raw k (a + Rmin (r / 2) ((1 - a) / 2))). split; [apply Cl; rewrite Rabs_right; lra|]. apply On; [left; eexists; split; [|reflexivity]; lra|]. apply C1. lra.
    + exfalso. apply (C2 e t); auto.
    + destruct (Req_dec t b) as [->|]; [|exfalso; apply (C3 t); [lra|exact Xq]]. destruct (seg_close raw (k + S e') b eps Heps) as (r & Hr & Cl).
      pose proof (Rmin_l (r / 2) (b / 2)). pose proof (Rmin_r (r / 2) (b / 2)). assert (0 < Rmin (r / 2) (b / 2)) by (apply Rmin_glb_lt; lra).
      exists (seg raw (k + S e') (b - Rmin (r / 2) (b / 2))). split; [apply Cl; rewrite Rabs_left; lra|]. apply On; [right; right; eexists; split; [|reflexivity]; lra|]. apply C3. lra.
Qed.

Lemma oclearBy_K z : clearBy pl (Rabs d) z <-> K z.
Proof. symmetry. apply (keepsO_spec pl d HC). Qed.

Lemma obase_on j l : (S j < length (vertexes pl))%nat -> 0 <= l <= len pl j -> onPath pl (base pl j l).
Proof. intros Hj Hl. apply (oonPath_base pl d HC). eauto. Qed.

(** a point of the raw offset that keeps its distance is at distance exactly |d| *)
Lemma oraw_exact z : onPath raw z -> K z -> atDistance pl (Rabs d) z.
Proof.
  intros Oz HK. split; [now apply oclearBy_K|]. apply (on_open raw H2 Hop) in Oz. destruct Oz as (k & t & Hk & Ht & ->).
  assert (Sq : forall p, sqd (seg raw k t) p = d * d -> dist (seg raw k t) p = Rabs d). { intros p E. rewrite dist_sqd, E. replace (d * d) with (Rsqr d) by reflexivity. apply sqrt_Rsqr_abs. }
  pose proof (otag_ok pl d HC k) as Hok. destruct (otagAt pl d k) as [j|j|j] eqn:Et; cbn [okTag] in Hok.
  - pose proof (ooff_range pl d raw HC Er k j t Hk Et Ht HK) as Hr. pose proof (oseg_off pl d raw HC Er k j t Hk Et) as Es.
    pose proof (trimS_bound pl d HC j Hok) as B1. pose proof (trimE_bound pl d HC j Hok) as B2.
    match type of Es with _ = edgePt _ _ _ ?l0 => set (l := l0) in *; assert (Hl : 0 <= l <= len pl j) by (unfold l; nra) end.
    exists (base pl j l). split.
    + now apply obase_on.
    + apply Sq. rewrite Es. unfold edgePt, base. rewrite sqd_off by now apply (oP_ne pl d HC). ring.
  - destruct (oseg_arc pl d raw HC Er k j Hk Et) as (Hb & th & Hr & Hth & Hs). pose proof (arc_coords d _ _ _ th (otn pl d HC j Hok) Hd Hr (t * th)) as (C0 & _).
    exists (pt pl (S j)). split; [|apply Sq; rewrite Hs; exact C0]. rewrite <- (base_start pl (S j)). apply obase_on; [auto|]. pose proof (olen_p pl d HC (S j) Hok). lra.
  - exfalso. destruct (oseg_link pl d raw HC Er k j t Hk Et) as [Es Hb]. rewrite Es in HK. exact (olink_close pl d HC j t Hok Hd Hb Ht HK).
Qed.
End Exact.

Lemma osegs_line pl d v1 v2 : clearOpen pl d -> In (v1, v2) (pathSegs pl) -> isLine v1.
Proof. intros HC Hin. rewrite (pathSegs_seqO pl d HC) in Hin. apply in_map_iff in Hin. destruct Hin as (k & E & _). injection E as <- _. apply (oV_line pl d HC). Qed.

(** ** C65 *)
Section Result.
Context {SL : StdLib} {SLaws : StdLaws SL}.

(** Offsetting an open polyline of straight segments by d, when its corners are clear for offsetting to both sides, the raw offset is in general position, and
    no test point falls into the tolerance band. Then every point of every result is at distance exactly |d| from the input; and, when the intersection test
    gives no false alarm, every point of the raw offset that keeps its distance |d| from the input is on a result, apart from the cut points and the ends. *)
Theorem C65_open_exact pl d h raw dual : clearOpen pl d -> clearOpen pl (- d) -> indexable pl -> 1 / 10000 <= Rabs d ->
  (48 * Z.of_nat (length (vertexes pl)) * Z.of_nat (length (vertexes pl)) <= 2 ^ 24)%Z ->
  createRawOffsetPline pl d = Ok raw -> createRawOffsetPline pl (- d) = Ok dual -> spread raw -> openPosition pl d raw dual ->
  decisiveOpen pl raw d (cutPointOpen pl d raw dual) ->
  exists rs, parallelOffset pl d h = Ok rs /\
    (forall r q, In r rs -> onPath r q -> atDistance pl (Rabs d) q) /\
    (noFalseHitsOpen pl raw d -> forall q, onPath raw q -> clearBy pl (Rabs d) q -> ~ cutPointOpen pl d raw dual q -> q <> firstPos raw -> q <> lastPos raw -> exists r, In r rs /\ onPath r q).
Proof.
  intros HC HC' Hix Hd Hn Er Ed Hspr OP Dec.
  assert (Hd0 : d <> 0) by (intros ->; rewrite Rabs_R0 in Hd; lra).
  assert (Hline : forall v, In v (vertexes pl) -> isLine v) by apply HC.
  assert (Hok : okPath pl). { intros v1 v2 Hin. left. exact (osegs_line pl d v1 v2 HC Hin). }
  assert (Hsm : smallBulges pl). { apply List.Forall_forall. intros v Hv. specialize (Hline v Hv). unfold isLine in Hline. lra. }
  destruct (C64_open_offset pl d h raw dual) as (rs & parts & E & [Hcut Hcov] & kept & dropped & P & V & D & T & _); auto; [apply HC|]. exists rs. split; [exact E|].
  pose proof (oraw2 pl d raw HC Er) as H2. pose proof (oraw_open pl d raw HC Er) as Hop.
  assert (NTC : forall p, tooClose pl d p -> ~ keepsO pl d p).
  { intros p (v1 & v2 & Hin & [(q & Oq & Hq)|[NL _]]) HK; [|apply NL; exact (osegs_line pl d v1 v2 HC Hin)]. assert (Op : onPath pl q) by (exists v1, v2; auto). pose proof (proj2 (oclearBy_K pl d HC p) HK q Op). lra. }
  split.
  - intros r q Hr Hq. apply onPath_trace in Hq. destruct Hq as (e & He & Oe).
    assert (Hin : In e (flat_map traceOf kept)). { apply (Permutation_in _ T). apply in_flat_map. eauto. }
    apply in_flat_map in Hin. destruct Hin as (l & Hl & Hel). assert (Hp : partOpen raw (cutPointOpen pl d raw dual) l) by (apply Hcut, (Permutation_in _ P), in_or_app; now left).
    assert (Ol : onPath (mkPline false l) q). { apply onPath_trace. exists e. split; [|auto]. now rewrite trace_open. }
    pose proof Hp as (k & a & n & b & Hkn & R & _). destruct (run_ends raw k a n b l R) as (_ & _ & L2 & _).
    assert (KM : keepsO pl d (lastMid l)).
    { destruct (Dec l Hp) as [Hcl|(p & Hpp & Hdp)]; [now apply (oclearBy_K pl d HC)|]. exfalso. assert (Cp : clearOfInput pl d (lastMid l)); [|specialize (Cp p Hpp); lra]. apply (V l Hl). right.
      destruct (exists_last (l := l)) as (l' & y & ->); [intros ->; cbn in L2; lia|]. destruct (exists_last (l := l')) as (l1 & x & ->); [intros ->; cbn in L2; lia|]. rewrite <- app_assoc. cbn [app]. exists l1, x, y. split; [reflexivity|]. right. apply lastMid_snoc. }
    apply (oraw_exact pl d raw HC Hd0 Er); [|apply (opart_all pl d raw dual HC HC' Hd0 Er Ed OP l); auto].
    apply (run_onRun _ _ _ _ _ _ _ H2 R) in Ol. destruct R as (Ha & Hb & _). apply (on_open raw H2 Hop). destruct n; cbn [onRun] in Ol.
    + destruct Ol as (t & Ht & ->). exists k, t. split; [lia|]. split; [lra|reflexivity].
    + destruct Ol as [(t & Ht & ->)|[(e' & t & He' & Ht & ->)|(t & Ht & ->)]]; do 2 eexists; (split; [|split; [|reflexivity]]); try lia; lra.
  - intros NF q Oq Cq NX N1 N2. assert (Kq : keepsO pl d q) by now apply (oclearBy_K pl d HC). assert (NY : ~ cutOrEnd pl d raw dual q) by (intros [?|[?|?]]; auto).
    destruct (Hcov q Oq) as (l & Hl & Ol). assert (Hp : partOpen raw (cutPointOpen pl d raw dual) l) by auto. apply (Permutation_in _ (Permutation_sym P)) in Hl. apply in_app_or in Hl. destruct Hl as [Hl|Hl].
    + apply onPath_trace in Ol. destruct Ol as (e & He & Oe). rewrite trace_open in He. assert (Hin : In e (flat_map trace rs)). { apply (Permutation_in _ (Permutation_sym T)). apply in_flat_map. eauto. }
      apply in_flat_map in Hin. destruct Hin as (r & Hr & Her). exists r. split; [auto|]. apply onPath_trace. eauto.
    + exfalso. assert (KM : keepsO pl d (lastMid l)) by (apply (opart_keeps pl d raw dual HC HC' Hd0 Er Ed OP l q); auto).
      assert (KA : forall z, onPath (mkPline false l) z -> keepsO pl d z) by (intros z Oz; apply (opart_all pl d raw dual HC HC' Hd0 Er Ed OP l); auto).
      pose proof Hp as (k & a & n & b & _ & R & _).
      destruct (D l Hl) as [(p & Hpt & Hcl)|[(l1 & x & y & l2 & y' & u1 & u2 & El & Ey & Hu & Hi)|(Hh & _)]]; [| |discriminate].
      * apply (NTC p Hcl). destruct Hpt as [(v & Hv & ->)| ->]; [|exact KM]. apply KA. apply (vertex_on l v); [apply (run_ends raw k a n b l R)|auto].
      * apply Hi. assert (Hxy : In (x, y) (segsOf l)) by (rewrite El; apply segsOf_mid).
        destruct (run_piece_ofO raw (cutPointOpen pl d raw dual) H2 Hop (oo_arcs _ _ _ _ OP) (oo_spaced _ _ _ _ OP) (cutOrEnd pl d raw dual) l x y) as (k' & s & t & Hk' & Hs & Hst & Ht & Pc & Bx & Fx); auto; [intros z; unfold cutOrEnd; tauto|apply (oo_apart _ _ _ _ OP)|].
        apply (NF k' s t x y' u1 u2); auto; [intros z; rewrite (segPath_end x y' y) by auto; apply Pc|now rewrite Ey|].
        intros z Hz. apply (oclearBy_K pl d HC). apply KA. exists x, y. rewrite pathSegs_open. split; [auto|]. apply onSeg_path. exists ((z - s) / (t - s)). assert (Ez : (z - s) / (t - s) * (t - s) = z - s) by (field; lra). split.
        -- split; [apply Rmult_le_pos; [lra|apply Rlt_le, Rinv_0_lt_compat; lra]|]. apply (Rmult_le_reg_r (t - s)); [lra|]. rewrite Ez. lra.
        -- rewrite (Pc _), Ez. unfold seg. f_equal. lra.
Qed.

(** every point at distance |d| from the input is on the raw offset to one side or the other, or on the circle of radius |d| about an end of the input *)
Lemma C65_curve_on_raw pl d raw dual z : clearOpen pl d -> clearOpen pl (- d) -> d <> 0 -> createRawOffsetPline pl d = Ok raw -> createRawOffsetPline pl (- d) = Ok dual ->
  atDistance pl (Rabs d) z -> onPath raw z \/ onPath dual z \/ dist (firstPos pl) z = Rabs d \/ dist (lastPos pl) z = Rabs d.
Proof.
  intros HC HC' Hd Er Ed [Hz (p & Hp & Hzp)]. apply (oclearBy_K pl d HC) in Hz. apply (oonPath_base pl d HC) in Hp. destruct Hp as (j & l & Hj & Hl & ->).
  assert (HA : activeE pl d j z). { exists l. split; [auto|]. rewrite dist_sqd in Hzp. rewrite <- (sqrt_sqrt (sqd z (base pl j l))) by apply sqd_nonneg. rewrite Hzp, <- Rabs_mult. apply Rabs_right, Rle_ge, sq_nonneg. }
  destruct (ocomplete pl d raw dual HC HC' Hd Er Ed j z Hj Hz HA) as [(k & Hk & Ho & _)|[Ho|Ho]]; [left|right; auto|right; right; now apply (atEnd_dist pl d z HC)]. apply (oonSeg_onPath raw k); auto; [apply (oraw_open pl d raw HC Er)|apply (oraw2 pl d raw HC Er)].
Qed.

(** The results of offsetting to both sides make up the curve of all points at distance |d| from the input, apart from the circles of radius |d| about the ends
    of the input and from the points where the raw offsets meet themselves or each other. *)
Theorem C65_open_curve pl d h raw dual : clearOpen pl d -> clearOpen pl (- d) -> indexable pl -> 1 / 10000 <= Rabs d ->
  (48 * Z.of_nat (length (vertexes pl)) * Z.of_nat (length (vertexes pl)) <= 2 ^ 24)%Z ->
  createRawOffsetPline pl d = Ok raw -> createRawOffsetPline pl (- d) = Ok dual -> spread raw -> spread dual -> openPosition pl d raw dual -> openPosition pl (- d) dual raw ->
  decisiveOpen pl raw d (cutPointOpen pl d raw dual) -> decisiveOpen pl dual (- d) (cutPointOpen pl (- d) dual raw) -> noFalseHitsOpen pl raw d -> noFalseHitsOpen pl dual (- d) ->
  exists rs rs', parallelOffset pl d h = Ok rs /\ parallelOffset pl (- d) h = Ok rs' /\
    forall z, dist (firstPos pl) z <> Rabs d -> dist (lastPos pl) z <> Rabs d -> ~ openDouble raw z -> ~ openDouble dual z -> ~ common raw dual z ->
      (atDistance pl (Rabs d) z <-> exists r, In r (rs ++ rs') /\ onPath r z).
Proof.
  intros HC HC' Hix Hd Hn Er Ed S1 S2 O1 O2 D1 D2 F1 F2.
  assert (Hd0 : d <> 0) by (intros ->; rewrite Rabs_R0 in Hd; lra). assert (HCC : clearOpen pl (- - d)) by (rewrite Ropp_involutive; exact HC). assert (Er' : createRawOffsetPline pl (- - d) = Ok raw) by (rewrite Ropp_involutive; exact Er).
  destruct (C65_open_exact pl d h raw dual) as (rs & E1 & A1 & B1); auto.
  destruct (C65_open_exact pl (- d) h dual raw) as (rs' & E2 & A2 & B2); auto; [now rewrite Rabs_Ropp|].
  rewrite Rabs_Ropp in A2, B2. exists rs, rs'. split; [auto|]. split; [auto|]. intros z N1 N2 N3 N4 N5. split.
  - intros Hz. destruct (C65_curve_on_raw pl d raw dual z HC HC' Hd0 Er Ed Hz) as [Oz|[Oz|[?|?]]]; [| |contradiction|contradiction].
    + destruct (oraw_end_dist pl d raw HC Er) as [Z1 Z2]. destruct (B1 F1 z Oz (proj1 Hz)) as (r & Hr & Or).
      * intros (_ & [?|[?|[?|?]]] & _); auto.
      * intros ->. auto.
      * intros ->. auto.
      * exists r. split; [apply in_or_app; auto|auto].
    + destruct (oraw_end_dist pl (- d) dual HC' Ed) as [Z1 Z2]. rewrite Rabs_Ropp in Z1, Z2. destruct (B2 F2 z Oz (proj1 Hz)) as (r & Hr & Or).
      * rewrite Rabs_Ropp || idtac. intros (_ & H & _). rewrite ?Rabs_Ropp in H. destruct H as [?|[[Q1 Q2]|[?|?]]]; auto. apply N5. split; auto.
      * intros ->. auto.
      * intros ->. auto.
      * exists r. split; [apply in_or_app; auto|auto].
  - intros (r & Hr & Or). apply in_app_or in Hr. destruct Hr as [Hr|Hr]; [apply (A1 r z Hr Or)|apply (A2 r z Hr Or)].
Qed.
End Result.
