(** * C58: the offset of a straight closed polyline consists exactly of the points at the offset distance *)
From Coq Require Import ZArith Reals Lra Lia List Bool Arith Permutation Sorted.
From Verif Require Import Base Num MathUtils PlineSegment SpatialIndex Polyline Intersects Combine Offset StdLaws RGeom Spec PropsMath ArcGeom Polar PropsSegment PropsClosest PropsIntr PropsPlineIntr PropsPolyline Turning PropsWinding PropsRegion PropsPlineIndex PropsExtents PropsCoincident PropsSlices PropsStitch PropsCombine PropsPieces PropsTrace PropsBoolOps PropsOffset PropsOffsetSlices PropsOffsetSegs PropsRawOffset PropsJoins PropsRawStructure PropsRawGeom PropsRawPoints PropsParallelTotal PropsOffsetRuns PropsOffsetCuts PropsCover PropsRunPoints PropsBalance PropsJordan PropsOffsetParts PropsOffsetResult PropsOffsetConst.
Import ListNotations.
Open Scope R_scope.

(** ** Specification *)
(** z is nowhere closer than r to the polyline *)
Definition clearBy (pl : polyline) (r : R) (z : vec) : Prop := forall p, onPath pl p -> r <= dist z p.
(** the distance from z to the polyline is r *)
Definition atDistance (pl : polyline) (r : R) (z : vec) : Prop := clearBy pl r z /\ exists p, onPath pl p /\ dist z p = r.

(** the point at which each stretch is finally judged (and the first vertex, by which an uncut raw offset is judged) is clear of the input or
    closer to it than the tolerance of the test: none falls into the band between |d| - 2e-4 and |d| *)
Definition decisive (pl raw : polyline) (d : R) (X : vec -> Prop) : Prop := forall p, p = pos (at_ raw 0) \/ (exists l, part raw X l /\ p = lastMid l) ->
  clearBy pl (Rabs d) p \/ exists q, onPath pl q /\ dist p q <= Rabs d - 2 / 10000.

(** the segment intersection test reports no intersection of the input with a piece of a segment of the raw offset, at least 1e-5 long, that keeps its distance from the input *)
Definition noFalseHits (pl raw : polyline) (d : R) : Prop := forall k a b v w u1 u2, (k < length (vertexes raw))%nat -> 0 <= a -> a < b -> b <= 1 ->
  piece (vert raw k 0) (vert raw k 1) a b v w -> Rabs (bulge v) <= 1 -> far (pos v) (pos w) -> (forall t, a <= t <= b -> clearBy pl (Rabs d) (seg raw k t)) -> In (u1, u2) (pathSegs pl) -> intrPlineSegs v w u1 u2 = NoIntersect.

(** a loop so small that the library drops it when the input does not intersect itself *)
Definition tinyLoop (l : list vertex) : Prop := fuzzyEqual (pos (hd vdflt l)) (pos (last l vdflt)) (1 / 100000000) = true /\ getPathLength (mkPline false l) <= 1 / 100.

Lemma lastMid_run raw X k a d b l : closedPline raw -> smallBulges raw -> spaced raw X -> run raw k a d b l -> lastMid l = runMid raw k a d b.
Proof.
  intros Craw Hsm Hsp R. assert (Hs : sep raw []) by (apply (side_sep raw X [] Craw Hsp); intros k0 c []).
  pose proof (run_accepted raw [] (proj2 Craw) Hsm Hs k a d b l (fun p => if pdec (p = lastMid l) then true else false) R) as G. cbv beta in G.
  destruct (run_ends raw k a d b l R) as (_ & _ & H2 & _). assert (A : PropsSlices.accepted (fun p => if pdec (p = lastMid l) then true else false) l = true).
  { unfold PropsSlices.accepted. assert (El : lastMid l = lastMid l) by reflexivity. unfold lastMid at 2 in El. rewrite <- (rev_length l) in H2. destruct (rev l) as [|y [|x t]]; [cbn in H2; lia|cbn in H2; lia|]. destruct (pdec (segMidpoint x y = lastMid l)) as [|N]; [reflexivity|]. exfalso. apply N. now symmetry. }
  specialize (G A). destruct (pdec _) as [E|N]; [now symmetry|discriminate].
Qed.

Lemma apart_far x y : wellApart x y -> far x y.
Proof. unfold wellApart, far. lra. Qed.

(** every segment of a stretch is a piece of a segment of the raw offset *)
Lemma run_piece_of raw X l x y : closedPline raw -> smallBulges raw -> spaced raw X -> (forall q q', X q -> X q' -> q <> q' -> wellApart q q') -> part raw X l -> In (x, y) (segsOf l) ->
  exists k' s t, (k' < length (vertexes raw))%nat /\ 0 <= s /\ s < t /\ t <= 1 /\ piece (vert raw k' 0) (vert raw k' 1) s t x y /\ Rabs (bulge x) <= 1 /\ far (pos x) (pos y).
Proof.
  intros Craw Hsm Hsp Hap (k & a & d & b & _ & _ & (Ha & Hb & R) & _ & Xa & Xb) Hin. pose proof (proj2 Craw) as Hn. assert (Hs : sep raw []) by (apply (side_sep raw X [] Craw Hsp); intros k0 c []).
  assert (FX : forall q j e, X q -> far q (pos (vert raw j e))) by (intros q j e Hq; apply (proj1 (proj2 Hsp)); [apply vert_in; auto|auto]).
  assert (Q : forall j s t, 0 <= s -> s < t -> t <= 1 -> piece (vert raw k j) (vert raw k (S j)) s t x y -> Rabs (bulge x) <= 1 -> far (pos x) (pos y) ->
    exists k' s t, (k' < length (vertexes raw))%nat /\ 0 <= s /\ s < t /\ t <= 1 /\ piece (vert raw k' 0) (vert raw k' 1) s t x y /\ Rabs (bulge x) <= 1 /\ far (pos x) (pos y)).
  { intros j s t H1 H2 H3 Hp Hbu Hf. exists ((k + j) mod length (vertexes raw))%nat, s, t. split; [apply Nat.mod_upper_bound; lia|]. split; [auto|]. split; [auto|]. split; [auto|]. split; [|auto].
    intros u. change (segPath x y u = seg raw ((k + j) mod length (vertexes raw)) (s + u * (t - s))). rewrite (seg_mod raw Hn), (Hp u). unfold seg, vert. now rewrite <- !Nat.add_assoc, Nat.add_0_r, Nat.add_1_r. }
  assert (EP : forall j t, seg raw (k + j) t = segPath (vert raw k j) (vert raw k (S j)) t) by (intros j t; unfold seg; now rewrite !vert_shift, Nat.add_0_r, Nat.add_1_r).
  destruct d as [|d'].
  - destruct R as (u & w & -> & Hab & P & Bu). destruct Hin as [E|[]]. injection E as <- <-. apply (Q 0%nat a b); auto; [lra|lra|].
    rewrite (piece_start _ _ _ _ _ _ P), (piece_end _ _ _ _ _ _ P). rewrite Nat.add_0_r in Xb. unfold seg in Xa, Xb. apply apart_far. apply Hap; auto.
    intros E. apply segPath_inj in E; [lra|now apply vert_small|apply far_ne, (vert_far raw [] Hn Hs)|auto|auto].
  - destruct R as (w & us & e & -> & Ha1 & Hb0 & Pw & Bw & P & Bu & Eu). cbn [app segsOf] in Hin. rewrite openSegs_snoc2 in Hin.
    assert (Eu' : pos us = pos (vert raw k (1 + d'))) by (rewrite Eu; reflexivity). apply in_app_or in Hin. destruct Hin as [H|[E|[]]].
    + apply (openSegs_verts raw Hn k d' 1 w us Eu') in H. destruct H as [[-> Ey]|(j & Hj & -> & Ey)].
      * apply (Q 0%nat a 1); auto; [lra|lra| |].
        -- intros u. rewrite (segPath_end w y (vert raw k 1)) by auto. apply Pw.
        -- rewrite Ey, (piece_start _ _ _ _ _ _ Pw). apply FX. exact Xa.
      * apply (Q j 0 1); try lra; [|now apply vert_small|rewrite Ey; apply (vert_far raw [] Hn Hs)]. intros u. rewrite (segPath_end _ y (vert raw k (S j))) by auto. f_equal. ring.
    + injection E as <- <-. apply (Q (S d') 0 b); auto; [lra|lra|]. rewrite Eu. apply far_sym. rewrite (piece_end _ _ _ _ _ _ P). apply FX. rewrite <- EP. exact Xb.
Qed.

Lemma segs_line pl d v1 v2 : clearRaw pl d -> In (v1, v2) (pathSegs pl) -> isLine v1.
Proof.
  intros HC Hin. rewrite (pathSegs_seq pl d HC) in Hin. apply in_map_iff in Hin. destruct Hin as (k & E & _). injection E as <- _. apply (V_line pl d HC).
Qed.

Lemma segsOf_mid l1 x y l2 : In (x, y) (segsOf (l1 ++ x :: y :: l2)).
Proof. destruct l1 as [|v l1]; [now left|]. cbn [app segsOf]. rewrite PropsPolyline.openSegs_app. apply in_or_app. right. right. now left. Qed.

Lemma vertex_on l v : (2 <= length l)%nat -> In v l -> onPath (mkPline false l) (pos v).
Proof.
  intros H2 Hv. apply in_split in Hv. destruct Hv as (l1 & l2 & ->). unfold onPath. rewrite pathSegs_open. destruct l2 as [|y l2].
  - destruct (exists_last (l := l1)) as (l0 & x & ->). { intros ->. cbn in H2. lia. } exists x, v. rewrite <- app_assoc. split; [apply segsOf_mid|]. apply onSeg_path. exists 1. split; [lra|]. now rewrite segPath_1.
  - exists v, y. split; [apply segsOf_mid|]. apply onSeg_path. exists 0. split; [lra|]. now rewrite segPath_0.
Qed.

Section Exact.
Variables (pl : polyline) (d : R) (raw dual : polyline).
Hypothesis (HC : clearRaw pl d) (HC' : clearRaw pl (- d)) (Hd : d <> 0).
Hypothesis (Er : createRawOffsetPline pl d = Ok raw) (Ed : createRawOffsetPline pl (- d) = Ok dual).
Variable X : vec -> Prop.
Hypothesis (X1 : forall q, doublePoint raw q -> X q) (X2 : forall q, keepsD pl d q -> onPath raw q -> onPath dual q -> X q).
Hypothesis (Hsm : smallBulges raw) (Hsp : spaced raw X).
Notation K := (keepsD pl d).
Notation N := (length (vertexes raw)).

Lemma raw3 : (3 <= N)%nat.
Proof. rewrite (raw_len pl d raw HC Er). apply (tags_pos pl d HC). Qed.

Lemma raw_cl : closedPline raw.
Proof. split; [apply (raw_closed pl d raw HC Er)|]. pose proof raw3. lia. Qed.

Lemma keeps_loc k s t : 0 <= s -> s <= t -> t <= 1 -> (forall x, s <= x <= t -> ~ X (seg raw k x)) -> (K (seg raw k s) <-> K (seg raw k t)).
Proof.
  intros H0 Hst H1 NX. assert (H2 : (2 <= N)%nat) by (pose proof raw3; lia). rewrite <- !(seg_mod raw H2 k). apply (keeps_const pl d raw dual HC HC' Hd Er Ed X X1 X2); auto; [apply Nat.mod_upper_bound; lia|].
  intros x Hx. rewrite (seg_mod raw H2 k). auto.
Qed.

(** a stretch keeps its distance everywhere if it does so at its test point; otherwise nowhere except at its ends *)
Lemma part_keeps l q : part raw X l -> onPath (mkPline false l) q -> ~ X q -> (K q <-> K (lastMid l)).
Proof.
  intros (k & a & e & b & Hk & He & R & C & _) O NX. assert (H2 : (2 <= N)%nat) by (pose proof raw3; lia). rewrite (lastMid_run raw X k a e b l raw_cl Hsm Hsp R).
  apply (run_onRun raw k a e b l q H2 R) in O. destruct R as (Ha & Hb & R). apply (run_const raw X K (fun _ => True)); auto; [intros k0 s t _; apply keeps_loc| |].
  - intros ->. destruct R as (? & ? & _ & H & _). exact H.
  - intros H. destruct e; [lia|]. destruct R as (? & ? & ? & _ & A & B & _). auto.
Qed.

Lemma keeps_closed (z : vec) : (forall e, 0 < e -> exists z', dist z z' < e /\ K z') -> K z.
Proof.
  intros H. apply Classical_Prop.NNPP. intros NK. destruct (nonkeep_open pl d HC z NK) as (e & He & G). destruct (H e He) as (z' & Hz & HK). exact (G z' Hz HK).
Qed.

Lemma part_all l q : part raw X l -> onPath (mkPline false l) q -> K (lastMid l) -> K q.
Proof.
  intros Hp O HM. destruct (Classical_Prop.classic (X q)) as [Xq|NX]; [|now apply (part_keeps l q Hp O NX)].
  pose proof Hp as (k & a & e & b & Hk & He & R & C & _). assert (H2 : (2 <= N)%nat) by (pose proof raw3; lia).
  assert (On : forall y, onRun raw k a e b y -> ~ X y -> K y). { intros y Oy NY. apply (part_keeps l y Hp); auto. now apply (run_onRun raw k a e b l y H2 R). }
  pose proof O as O'. apply (run_onRun raw k a e b l q H2 R) in O'. destruct R as (Ha & Hb & R). apply keeps_closed. intros eps Heps. destruct e as [|e'].
  - destruct R as (_ & _ & _ & Hab & _). cbn [onRun clearOf] in *. destruct O' as (t & Ht & ->). destruct (seg_close raw k t eps Heps) as (r & Hr & Cl).
    assert (Hs : exists s, a < s < b /\ Rabs (s - t) < r).
    { destruct (Rle_lt_dec t a) as [L|L].
      - exists (a + Rmin (r / 2) ((b - a) / 2)). pose proof (Rmin_l (r / 2) ((b - a) / 2)). pose proof (Rmin_r (r / 2) ((b - a) / 2)). assert (0 < Rmin (r / 2) ((b - a) / 2)) by (apply Rmin_glb_lt; lra). split; [lra|]. rewrite Rabs_right; lra.
      - exists (t - Rmin (r / 2) ((t - a) / 2)). pose proof (Rmin_l (r / 2) ((t - a) / 2)). pose proof (Rmin_r (r / 2) ((t - a) / 2)). assert (0 < Rmin (r / 2) ((t - a) / 2)) by (apply Rmin_glb_lt; lra). split; [lra|]. rewrite Rabs_left; lra. }
    destruct Hs as (s & Hs & Hc). exists (seg raw k s). split; [now apply Cl|]. apply On; [exists s; split; [lra|reflexivity]|]. apply C. lra.
  - destruct R as (_ & _ & _ & _ & Ha1 & Hb0 & _). cbn [onRun clearOf] in *. destruct C as (C1 & C2 & C3). destruct O' as [(t & Ht & ->)|[(e & t & Hee & Ht & ->)|(t & Ht & ->)]].
    + destruct (Req_dec t a) as [->|]; [|exfalso; apply (C1 t); [lra|exact Xq]]. destruct (seg_close raw k a eps Heps) as (r & Hr & Cl).
      pose proof (Rmin_l (r / 2) ((1 - a) / 2)). pose proof (Rmin_r (r / 2) ((1 - a) / 2)). assert (0 < Rmin (r / 2) ((1 - a) / 2)) by (apply Rmin_glb_lt; lra).
      exists (seg raw k (a + Rmin (r / 2) ((1 - a) / 2))). split; [apply Cl; rewrite Rabs_right; lra|]. apply On; [left; eexists; split; [|reflexivity]; lra|]. apply C1. lra.
    + exfalso. apply (C2 e t); auto.
    + destruct (Req_dec t b) as [->|]; [|exfalso; apply (C3 t); [lra|exact Xq]]. destruct (seg_close raw (k + S e') b eps Heps) as (r & Hr & Cl).
      pose proof (Rmin_l (r / 2) (b / 2)). pose proof (Rmin_r (r / 2) (b / 2)). assert (0 < Rmin (r / 2) (b / 2)) by (apply Rmin_glb_lt; lra).
      exists (seg raw (k + S e') (b - Rmin (r / 2) (b / 2))). split; [apply Cl; rewrite Rabs_left; lra|]. apply On; [right; right; eexists; split; [|reflexivity]; lra|]. apply C3. lra.
Qed.

(** without cut points the raw offset keeps its distance everywhere or nowhere *)
Lemma uncut_all q : (forall z, ~ (onPath raw z /\ X z)) -> onPath raw q -> (K q <-> K (pos (at_ raw 0))).
Proof.
  intros NX Oq. assert (H2 : (2 <= N)%nat) by (pose proof raw3; lia). pose proof (proj1 raw_cl) as Hc.
  assert (NXs : forall k t, 0 <= t <= 1 -> ~ X (seg raw k t)). { intros k t Ht HX. apply (NX (seg raw k t)). split; [|auto]. now apply seg_onPath. }
  assert (Vs : forall k, K (seg raw k 0) <-> K (seg raw 0 0)).
  { induction k as [|k IH]; [tauto|]. rewrite <- IH. assert (E : seg raw (S k) 0 = seg raw k 1). { unfold seg. rewrite segPath_1, segPath_0. f_equal. unfold vert. do 2 f_equal. lia. }
    rewrite E. symmetry. apply keeps_loc; try lra. intros x Hx. apply NXs. lra. }
  assert (E0 : seg raw 0 0 = pos (at_ raw 0)). { unfold seg. rewrite segPath_0. unfold vert. rewrite Nat.add_0_r, Nat.mod_small by lia. reflexivity. }
  destruct (in_onSeg_path raw q Hc H2 Oq) as (k & Hk & O). apply onSeg_path in O. destruct O as (t & Ht & ->). change (segPath (vert raw k 0) (vert raw k 1) t) with (seg raw k t).
  rewrite <- E0, <- (Vs k). symmetry. apply keeps_loc; try lra. intros x Hx. apply NXs. lra.
Qed.

Lemma clearBy_K z : clearBy pl (Rabs d) z <-> K z.
Proof. symmetry. apply (keepsD_spec pl d HC). Qed.

Lemma base_on j l : 0 <= l <= len pl j -> onPath pl (base pl j l).
Proof.
  intros Hl. pose proof (n3 pl d HC) as H3. assert (Q : forall m i, base pl (i + m * length (vertexes pl)) l = base pl i l /\ len pl (i + m * length (vertexes pl)) = len pl i).
  { induction m as [|m IH]; intros i; [rewrite Nat.add_0_r; auto|]. replace (i + S m * length (vertexes pl))%nat with ((i + m * length (vertexes pl)) + length (vertexes pl))%nat by lia. rewrite (base_shift pl d HC), (len_shift pl d HC). apply IH. }
  apply (onPath_base pl d HC). exists (j mod length (vertexes pl))%nat, l. split; [apply Nat.mod_upper_bound; lia|].
  assert (E : (j = j mod length (vertexes pl) + (j / length (vertexes pl)) * length (vertexes pl))%nat) by (rewrite Nat.add_comm, Nat.mul_comm; apply Nat.div_mod; lia).
  destruct (Q (j / length (vertexes pl))%nat (j mod length (vertexes pl))%nat) as [E1 E2]. rewrite <- E in E1, E2. rewrite <- E2. auto.
Qed.

(** a point of the raw offset that keeps its distance is at distance exactly |d| *)
Lemma raw_exact z : onPath raw z -> K z -> atDistance pl (Rabs d) z.
Proof.
  intros Oz HK. split; [now apply clearBy_K|]. assert (H2 : (2 <= N)%nat) by (pose proof raw3; lia).
  destruct (in_onSeg_path raw z (proj1 raw_cl) H2 Oz) as (k & Hk & O). apply onSeg_path in O. destruct O as (t & Ht & ->). change (segPath (vert raw k 0) (vert raw k 1) t) with (seg raw k t) in *.
  assert (Sq : forall p, sqd (seg raw k t) p = d * d -> dist (seg raw k t) p = Rabs d). { intros p E. rewrite dist_sqd, E. replace (d * d) with (Rsqr d) by reflexivity. apply sqrt_Rsqr_abs. }
  destruct (tagAt pl d k) as [j|j|j] eqn:Et.
  - pose proof (off_range pl d raw HC Er k j t Hk Et Ht HK) as Hr. pose proof (seg_off pl d raw HC Er k j t Hk Et) as Es.
    destruct (trim_bound pl d HC j) as [B1 _]. destruct (trim_bound pl d HC (before pl j)) as [[B2 _] B3]. rewrite (before_len pl d HC) in B3.
    match type of Es with _ = edgePt _ _ _ ?l0 => set (l := l0) in *; assert (Hl : 0 <= l <= len pl j) by (unfold l; nra) end.
    exists (base pl j l). split.
    + now apply base_on.
    + apply Sq. rewrite Es. unfold edgePt, base. rewrite sqd_off by apply (P_ne pl d HC). ring.
  - destruct (seg_arc pl d raw HC Er k j Hk Et) as (Hb & th & Hr & Hth & Hs). pose proof (arc_coords d _ _ _ th (tn pl d HC j) Hd Hr (t * th)) as (C0 & _).
    exists (pt pl (S j)). split; [|apply Sq; rewrite Hs; exact C0]. rewrite <- (base_start pl (S j)). apply base_on. pose proof (len_p pl d HC (S j)). lra.
  - exfalso. destruct (seg_link pl d raw HC Er k j t Hk Et) as [Es Hb]. rewrite Es in HK. exact (link_close pl d HC j t Hd Hb Ht HK).
Qed.
End Exact.

(** ** C58 *)
Section Result.
Context {SL : StdLib} {SLaws : StdLaws SL}.

(** Offsetting a closed polyline of straight segments by d, when its corners are clear for offsetting to both sides, the raw offset is in general position, and
    no test point falls into the tolerance band. When self intersections of the input are not expected, the raw offsets to the two sides must have no point in
    common that keeps its distance. Then every point of every result is at distance exactly |d| from the input; and, when the intersection test gives no
    false alarm, every point of the raw offset that keeps its distance |d| from the input is on a result, apart from the cut points and from tiny loops. *)
Theorem C58_offset_exact pl d h raw dual : clearRaw pl d -> clearRaw pl (- d) -> indexable pl -> 1 / 10000 <= Rabs d ->
  (48 * Z.of_nat (length (vertexes pl)) * Z.of_nat (length (vertexes pl)) <= 2 ^ 24)%Z ->
  createRawOffsetPline pl d = Ok raw -> createRawOffsetPline pl (- d) = Ok dual -> spread raw -> offsetPosition h raw dual ->
  decisive pl raw d (cutPoint h raw dual) -> (h = true \/ forall q, clearBy pl (Rabs d) q -> ~ common raw dual q) ->
  exists rs, parallelOffset pl d h = Ok rs /\
    (forall r q, In r rs -> onPath r q -> atDistance pl (Rabs d) q) /\
    (noFalseHits pl raw d -> forall q, onPath raw q -> clearBy pl (Rabs d) q -> ~ cutPoint h raw dual q ->
      (exists r, In r rs /\ onPath r q) \/ (h = false /\ exists l, part raw (cutPoint h raw dual) l /\ tinyLoop l /\ onPath (mkPline false l) q)).
Proof.
  intros HC HC' Hix Hd Hn Er Ed Hspr OP Dec Sep.
  assert (Hd0 : d <> 0) by (intros ->; rewrite Rabs_R0 in Hd; lra).
  assert (Hline : forall v, In v (vertexes pl) -> isLine v) by apply HC.
  assert (Hok : okPath pl). { intros v1 v2 Hin. left. exact (segs_line pl d v1 v2 HC Hin). }
  assert (Hsm : smallBulges pl). { apply List.Forall_forall. intros v Hv. specialize (Hline v Hv). unfold isLine in Hline. lra. }
  destruct (C57_offset_parts pl d h raw dual) as (rs & E & O); auto; [apply HC|]. exists rs. split; [exact E|].
  set (X := cutPoint h raw dual) in *. assert (X1 : forall q, doublePoint raw q -> X q) by (intros q Hq; now left).
  assert (X2 : forall q, keepsD pl d q -> onPath raw q -> onPath dual q -> X q).
  { intros q Kq O1 O2. destruct Sep as [-> | Sep]; [right; split; [reflexivity|split; auto]|]. exfalso. apply (Sep q); [now apply (clearBy_K pl d HC)|split; auto]. }
  pose proof (op_arcs _ _ _ OP) as Hrs. pose proof (op_spaced _ _ _ OP) as Hsp. fold X in Hsp. pose proof (raw3 pl d raw HC Er) as H3. assert (H2 : (2 <= length (vertexes raw))%nat) by lia. pose proof (raw_cl pl d raw HC Er) as [Hrc _].
  assert (Band : forall p, p = pos (at_ raw 0) \/ (exists l, part raw X l /\ p = lastMid l) -> clearOfInput pl d p -> keepsD pl d p).
  { intros p Hp Cp. destruct (Dec p Hp) as [Hcl|(q & Hq & Hpq)]; [now apply (clearBy_K pl d HC)|]. exfalso. specialize (Cp q Hq). lra. }
  assert (NTC : forall p, tooClose pl d p -> ~ keepsD pl d p).
  { intros p (v1 & v2 & Hin & [(q & Oq & Hq)|[NL _]]) HK; [|apply NL; exact (segs_line pl d v1 v2 HC Hin)]. assert (Op : onPath pl q) by (exists v1, v2; auto). pose proof (proj2 (clearBy_K pl d HC p) HK q Op). lra. }
  split.
  - intros r q Hr Hq. destruct O as [(_ & parts & [Hcut _] & kept & dropped & P & V & _ & T & _)|(No & [[-> V]|[-> _]])]; [| |destruct Hr].
    + apply onPath_trace in Hq. destruct Hq as (e & He & Oe).
      assert (Hin : In e (flat_map traceOf kept)). { apply (Permutation_in _ T). apply in_flat_map. eauto. }
      apply in_flat_map in Hin. destruct Hin as (l & Hl & Hel). assert (Hp : part raw X l) by (apply Hcut, (Permutation_in _ P), in_or_app; now left).
      assert (Ol : onPath (mkPline false l) q). { apply onPath_trace. exists e. split; [|auto]. now rewrite trace_open. }
      assert (KM : keepsD pl d (lastMid l)). { apply Band; [right; eauto|]. apply (V l Hl). now right. }
      apply (raw_exact pl d raw HC Hd0 Er); [|apply (part_all pl d raw dual HC HC' Hd0 Er Ed X X1 X2 Hrs Hsp l); auto].
      destruct Hp as (k & a & n & b & _ & _ & R & _). apply (run_on raw k a n b l q); auto.
    + destruct Hr as [<-|[]]. assert (Oq : onPath raw q). { destruct raw as [c vs]. cbn [isClosed] in Hrc. subst c. exact Hq. }
      apply (raw_exact pl d raw HC Hd0 Er); auto. apply (uncut_all pl d raw dual HC HC' Hd0 Er Ed X X1 X2 q No Oq). apply Band; auto.
  - intros NF q Oq Cq NX. assert (Kq : keepsD pl d q) by now apply (clearBy_K pl d HC). destruct O as [(_ & parts & [Hcut [Hcov _]] & kept & dropped & P & _ & D & T & _)|(No & [[-> V]|[-> V]])].
    + destruct (Hcov q Oq) as (l & Hl & Ol). assert (Hp : part raw X l) by auto. apply (Permutation_in _ (Permutation_sym P)) in Hl. apply in_app_or in Hl. destruct Hl as [Hl|Hl].
      * left. apply onPath_trace in Ol. destruct Ol as (e & He & Oe). rewrite trace_open in He. assert (Hin : In e (flat_map trace rs)). { apply (Permutation_in _ (Permutation_sym T)). apply in_flat_map. eauto. }
        apply in_flat_map in Hin. destruct Hin as (r & Hr & Her). exists r. split; [auto|]. apply onPath_trace. eauto.
      * assert (KM : keepsD pl d (lastMid l)) by (apply (part_keeps pl d raw dual HC HC' Hd0 Er Ed X X1 X2 Hrs Hsp l q); auto).
        assert (KA : forall z, onPath (mkPline false l) z -> keepsD pl d z) by (intros z Oz; apply (part_all pl d raw dual HC HC' Hd0 Er Ed X X1 X2 Hrs Hsp l); auto).
        pose proof Hp as (k & a & n & b & _ & _ & R & _).
        destruct (D l Hl) as [(p & Hpt & Hcl)|[(l1 & x & y & l2 & y' & u1 & u2 & El & Ey & Hu & Hi)|(Hh & Hf & Hlen)]].
        -- exfalso. apply (NTC p Hcl). destruct Hpt as [(v & Hv & ->)| ->]; [|exact KM]. apply KA. apply (vertex_on l v); [apply (run_ends raw k a n b l R)|auto].
        -- exfalso. apply Hi. assert (Hxy : In (x, y) (segsOf l)) by (rewrite El; apply segsOf_mid).
           destruct (run_piece_of raw X l x y (conj Hrc H2) Hrs Hsp (op_apart _ _ _ OP) Hp Hxy) as (k' & s & t & Hk' & Hs & Hst & Ht & Pc & Bx & Fx).
           apply (NF k' s t x y' u1 u2); auto; [intros z; rewrite (segPath_end x y' y) by auto; apply Pc|now rewrite Ey|].
           intros z Hz. apply (clearBy_K pl d HC). apply KA. exists x, y. rewrite pathSegs_open. split; [auto|]. apply onSeg_path. exists ((z - s) / (t - s)). assert (Ez : (z - s) / (t - s) * (t - s) = z - s) by (field; lra). split.
           ++ split; [apply Rmult_le_pos; [lra|apply Rlt_le, Rinv_0_lt_compat; lra]|]. apply (Rmult_le_reg_r (t - s)); [lra|]. rewrite Ez. lra.
           ++ rewrite (Pc _), Ez. unfold seg. f_equal. lra.
        -- right. split; [auto|]. exists l. split; [auto|]. split; [split; auto|auto].
    + left. exists (mkPline true (vertexes raw)). split; [now left|]. destruct raw as [c vs]. cbn [isClosed] in Hrc. subst c. exact Oq.
    + exfalso. apply (NTC _ V). now apply (uncut_all pl d raw dual HC HC' Hd0 Er Ed X X1 X2 q No Oq).
Qed.

(** every point at distance |d| from the input is on the raw offset to one side or the other *)
Lemma C58_curve_on_raw pl d raw dual z : clearRaw pl d -> clearRaw pl (- d) -> d <> 0 -> createRawOffsetPline pl d = Ok raw -> createRawOffsetPline pl (- d) = Ok dual ->
  atDistance pl (Rabs d) z -> onPath raw z \/ onPath dual z.
Proof.
  intros HC HC' Hd Er Ed [Hz (p & Hp & Hzp)]. apply (clearBy_K pl d HC) in Hz. apply (onPath_base pl d HC) in Hp. destruct Hp as (j & l & Hj & Hl & ->).
  assert (HA : activeE pl d j z). { exists l. split; [auto|]. rewrite dist_sqd in Hzp. rewrite <- (sqrt_sqrt (sqd z (base pl j l))) by apply sqd_nonneg. rewrite Hzp, <- Rabs_mult. apply Rabs_right, Rle_ge, sq_nonneg. }
  destruct (complete pl d raw dual HC HC' Hd Er Ed j z Hj Hz HA) as [(k & Hk & Ho & _)|Ho]; [left|right; auto]. apply (onSeg_onPath raw k); auto; [apply (raw_closed pl d raw HC Er)|].
  pose proof (raw3 pl d raw HC Er). lia.
Qed.

(** The results of offsetting to both sides make up the curve of all points at distance |d| from the input, apart from finitely many cut points. *)
Theorem C58_offset_curve pl d h raw dual : clearRaw pl d -> clearRaw pl (- d) -> indexable pl -> 1 / 10000 <= Rabs d ->
  (48 * Z.of_nat (length (vertexes pl)) * Z.of_nat (length (vertexes pl)) <= 2 ^ 24)%Z ->
  createRawOffsetPline pl d = Ok raw -> createRawOffsetPline pl (- d) = Ok dual -> spread raw -> spread dual -> offsetPosition h raw dual -> offsetPosition h dual raw ->
  decisive pl raw d (cutPoint h raw dual) -> decisive pl dual (- d) (cutPoint h dual raw) -> noFalseHits pl raw d -> noFalseHits pl dual (- d) ->
  (h = true \/ ((forall q, clearBy pl (Rabs d) q -> ~ common raw dual q) /\ (forall l, part raw (cutPoint h raw dual) l \/ part dual (cutPoint h dual raw) l -> ~ tinyLoop l))) ->
  exists rs rs', parallelOffset pl d h = Ok rs /\ parallelOffset pl (- d) h = Ok rs' /\
    forall z, ~ cutPoint h raw dual z -> ~ cutPoint h dual raw z -> (atDistance pl (Rabs d) z <-> exists r, In r (rs ++ rs') /\ onPath r z).
Proof.
  intros HC HC' Hix Hd Hn Er Ed S1 S2 O1 O2 D1 D2 F1 F2 Sep.
  assert (Hd0 : d <> 0) by (intros ->; rewrite Rabs_R0 in Hd; lra). assert (HCC : clearRaw pl (- - d)) by (rewrite Ropp_involutive; exact HC). assert (Er' : createRawOffsetPline pl (- - d) = Ok raw) by (rewrite Ropp_involutive; exact Er).
  destruct (C58_offset_exact pl d h raw dual) as (rs & E1 & A1 & B1); auto; [destruct Sep as [-> |[Sep _]]; auto|].
  destruct (C58_offset_exact pl (- d) h dual raw) as (rs' & E2 & A2 & B2); auto; [now rewrite Rabs_Ropp|destruct Sep as [-> |[Sep _]]; [auto|right]; rewrite Rabs_Ropp; intros q Hq [Q1 Q2]; apply (Sep q Hq); split; auto|].
  rewrite Rabs_Ropp in A2, B2. exists rs, rs'. split; [auto|]. split; [auto|]. intros z N1 N2. split.
  - intros Hz. destruct (C58_curve_on_raw pl d raw dual z HC HC' Hd0 Er Ed Hz) as [Oz|Oz].
    + destruct (B1 F1 z Oz (proj1 Hz) N1) as [(r & Hr & Or)|(Hh & l & Hl & Tl & _)]; [exists r; split; [apply in_or_app; auto|auto]|]. exfalso. destruct Sep as [-> |[_ NT]]; [discriminate|]. apply (NT l); auto.
    + destruct (B2 F2 z Oz (proj1 Hz) N2) as [(r & Hr & Or)|(Hh & l & Hl & Tl & _)]; [exists r; split; [apply in_or_app; auto|auto]|]. exfalso. destruct Sep as [-> |[_ NT]]; [discriminate|]. apply (NT l); auto.
  - intros (r & Hr & Or). apply in_app_or in Hr. destruct Hr as [Hr|Hr]; [apply (A1 r z Hr Or)|apply (A2 r z Hr Or)].
Qed.
End Result.
