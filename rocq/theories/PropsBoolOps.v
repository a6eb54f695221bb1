(** * C50: boolean operations on polylines that intersect *)
From Coq Require Import ZArith Reals Lra Lia Psatz List Bool Arith Permutation Sorted.
From Coquelicot Require Import Coquelicot.
From Verif Require Import Base Num MathUtils PlineSegment SpatialIndex Polyline Intersects Combine StdLaws RGeom Spec PropsMath ArcGeom Polar PropsSegment PropsClosest PropsIntr PropsPlineIntr PropsPolyline PropsWinding PropsPlineIndex PropsFindIntr PropsRegion PropsCoincident PropsSlices PropsStitch PropsCombine PropsPieces PropsTrace.
Import ListNotations.
Open Scope R_scope.

(** ** Specification *)
(** the pairwise intersection of two segments is exact: no overlap is reported, and exactly the common points are reported *)
Definition exactPair (v1 v2 u1 u2 : vertex) : Prop :=
  overlapsOf v1 v2 u1 u2 = [] /\ forall q, In q (crossPoints v1 v2 u1 u2) <-> onSeg v1 v2 q /\ onSeg u1 u2 q.

(** the points the two polylines have in common *)
Definition common (A B : polyline) (q : vec) : Prop := onPath A q /\ onPath B q.

(** vertices and marked points X of the polyline are at least the library's position tolerance 1e-5 apart, and arcs between them are not so
    short that the library takes them for lines *)
Definition spaced (pl : polyline) (X : vec -> Prop) : Prop :=
  (forall v1 v2, In (v1, v2) (pathSegs pl) -> far (pos v1) (pos v2)) /\
  (forall v q, In v (vertexes pl) -> X q -> far q (pos v)) /\
  (forall v1 v2 q, In (v1, v2) (pathSegs pl) -> X q -> onSeg v1 v2 q ->
     longArc v1 v2 (pos v1) q /\ longArc v1 v2 q (pos v2) /\ forall q', X q' -> onSeg v1 v2 q' -> q <> q' -> longArc v1 v2 q q').

(** more than twice the slice join threshold 1e-4 apart *)
Definition wellApart (x y : vec) : Prop := 2 / 10000 < Rabs (vx x - vx y) \/ 2 / 10000 < Rabs (vy x - vy y).

(** the polylines meet in finitely many points, each away from the vertices and from each other *)
Record generalPosition (A B : polyline) : Prop := {
  gp_exact : forall a1 a2 b1 b2, In (a1, a2) (pathSegs A) -> In (b1, b2) (pathSegs B) -> exactPair a1 a2 b1 b2;
  gp_first : spaced A (common A B);
  gp_second : spaced B (common A B);
  gp_apart : forall q q', common A B q -> common A B q' -> q <> q' -> wellApart q q' }.

(** ** Segments by index *)
Lemma seg_at pl k : isClosed pl = true -> (2 <= length (vertexes pl))%nat -> (k < length (vertexes pl))%nat ->
  vert pl k 0 = at_ pl k /\ vert pl k 1 = at_ pl (nextI pl k) /\ In (vert pl k 0, vert pl k 1) (pathSegs pl).
Proof.
  intros Hc H2 Hk. assert (E0 : vert pl k 0 = at_ pl k) by (unfold vert; now rewrite Nat.add_0_r, Nat.mod_small).
  assert (E1 : vert pl k 1 = at_ pl (nextI pl k)). { unfold vert, nextI. rewrite Nat.add_1_r, <- next_mod by lia. now rewrite Nat.mod_small. }
  split; [auto|]. split; [auto|]. rewrite E0, E1. apply (Permutation_in _ (vsegs_perm pl)). unfold vsegs. apply in_map_iff. exists (k, nextI pl k). split; [reflexivity|].
  apply segs_iff. split; [auto|]. split; [|reflexivity]. now rewrite segCount_eq, Hc.
Qed.

Lemma at_seg pl v1 v2 : isClosed pl = true -> In (v1, v2) (pathSegs pl) -> exists k, (k < length (vertexes pl))%nat /\ v1 = vert pl k 0 /\ v2 = vert pl k 1.
Proof.
  intros Hc H. apply (Permutation_in _ (Permutation_sym (vsegs_perm pl))) in H. unfold vsegs in H. apply in_map_iff in H. destruct H as ([i j] & E & Hin). injection E as <- <-.
  apply segs_iff in Hin. destruct Hin as (H2 & Hi & ->). rewrite segCount_eq, Hc in Hi by auto. exists i. destruct (seg_at pl i Hc H2 Hi) as (-> & -> & _). auto.
Qed.

(** ** One of the two polylines and its cuts *)
Section Side.
Context {SL : StdLib} {SLaws : StdLaws SL}.
Context (pl other : polyline) (X : vec -> Prop) (cs : list (nat * slicePoint)).
Hypothesis (Cpl : closedPline pl) (Spl : smallBulges pl) (So : smallBulges other) (HX : forall q, X q <-> onPath pl q /\ onPath other q) (Hsp : spaced pl X)
  (Hap : forall q q', X q -> X q' -> q <> q' -> wellApart q q').
Hypothesis Hsound : forall k c, In (k, c) cs -> (k < length (vertexes pl))%nat /\ spStart c = false /\ onSeg (vert pl k 0) (vert pl k 1) (spPos c) /\ X (spPos c).
Hypothesis Hcompl : forall k q, (k < length (vertexes pl))%nat -> onSeg (vert pl k 0) (vert pl k 1) q -> onPath other q -> In (k, mkSP q false) cs.

Lemma apart_far q q' : wellApart q q' -> far q q'.
Proof. intros [H|H]; [left|right]; lra. Qed.

Lemma side_sep : sep pl cs.
Proof.
  destruct Cpl as [Hc H2]. split.
  - intros i Hi. destruct (seg_at pl i Hc H2 Hi) as (E0 & E1 & Hin). unfold nextV. fold (nextI pl i). rewrite <- E0, <- E1, prec_R. apply far_fuzzy. exact (proj1 Hsp _ _ Hin).
  - intros k c i Hin Hi. destruct (Hsound k c Hin) as (_ & _ & _ & Hx). rewrite prec_R. assert (F : far (spPos c) (pos (at_ pl i))) by (apply (proj1 (proj2 Hsp)); [unfold at_; now apply nth_In|auto]).
    split; [now apply far_fuzzy|now apply far_fuzzy, far_sym].
Qed.

Lemma side_cut k c : In (k, c) cs -> (k < length (vertexes pl))%nat /\ spStart c = false /\
  exists t, 0 <= t <= 1 /\ spPos c = seg pl k t /\
    longArc (vert pl k 0) (vert pl k 1) (pos (vert pl k 0)) (spPos c) /\ longArc (vert pl k 0) (vert pl k 1) (spPos c) (pos (vert pl k 1)).
Proof.
  intros Hin. destruct (Hsound k c Hin) as (Hk & Hs & Ho & Hx). split; [auto|]. split; [auto|]. destruct (seg_at pl k (proj1 Cpl) (proj2 Cpl) Hk) as (_ & _ & Hp).
  destruct Hsp as (_ & _ & H3). destruct (H3 _ _ _ Hp Hx Ho) as (L1 & L2 & _). apply onSeg_path in Ho. destruct Ho as (t & Ht & E). exists t. auto.
Qed.

Lemma side_pair k c c' : In (k, c) cs -> In (k, c') cs -> spPos c = spPos c' \/ (far (spPos c) (spPos c') /\ longArc (vert pl k 0) (vert pl k 1) (spPos c) (spPos c')).
Proof.
  intros H H'. destruct (Hsound k c H) as (Hk & _ & Ho & Hx). destruct (Hsound k c' H') as (_ & _ & Ho' & Hx'). destruct (seg_at pl k (proj1 Cpl) (proj2 Cpl) Hk) as (_ & _ & Hp).
  destruct (Classical_Prop.classic (spPos c = spPos c')) as [E|N]; [auto|right]. split; [apply apart_far, Hap; auto|].
  destruct Hsp as (_ & _ & H3). destruct (H3 _ _ _ Hp Hx Ho) as (_ & _ & L). now apply L.
Qed.

(** a stretch starts and ends at common points; its points are on the polyline, and all those off the other polyline are on the side of the
    other polyline on which the stretch was tested *)
Lemma side_stretch k l (f : Z -> bool) : (k < length (vertexes pl))%nat -> In l (stretches pl cs k) -> accepted (fun p => f (getWindingNumber other p)) l = true ->
  X (pos (hd vdflt l)) /\ X (pos (last l vdflt)) /\ (2 <= length l)%nat /\
  forall q, onPath (mkPline false l) q -> onPath pl q /\ (onPath other q \/ f (getWindingNumber other q) = true).
Proof.
  intros Hk Hl Ha. destruct Cpl as [Hc H2].
  destruct (stretch_run pl other cs H2 Spl side_sep side_cut side_pair Hcompl k l Hk Hl) as (a & d & b & R & Hd & I1 & I2 & C).
  pose proof (run_accepted pl cs H2 Spl side_sep k a d b l _ R Ha) as Hm. cbn beta in Hm.
  split; [|split; [|split]].
  - replace (pos (hd vdflt l)) with (seg pl k a); [apply (Hsound _ _ I1)|]. destruct R as (_ & _ & R). destruct d.
    + destruct R as (u & w & -> & _ & P & _). symmetry. apply (piece_start _ _ _ _ _ _ P).
    + destruct R as (w & us & e & -> & _ & _ & P & _). symmetry. apply (piece_start _ _ _ _ _ _ P).
  - replace (pos (last l vdflt)) with (seg pl (k + d) b); [apply (Hsound _ _ I2)|]. destruct R as (_ & _ & R). destruct d.
    + destruct R as (u & w & -> & _ & P & _). symmetry. rewrite Nat.add_0_r. apply (piece_end _ _ _ _ _ _ P).
    + destruct R as (w & us & e & -> & _ & _ & _ & _ & P & _). symmetry. replace (last ([w] ++ map (vert pl k) (seq 1 d) ++ [us; e]) vdflt) with e.
      * rewrite (piece_end _ _ _ _ _ _ P). unfold seg. now rewrite !vert_shift, Nat.add_0_r, Nat.add_1_r.
      * rewrite app_assoc. change [us; e] with ([us] ++ [e]). rewrite app_assoc, last_last. reflexivity.
  - destruct R as (_ & _ & R). destruct d.
    + destruct R as (u & w & -> & _). cbn. lia.
    + destruct R as (w & us & e & -> & _). rewrite !app_length. cbn [length]. lia.
  - intros q Hq. destruct (run_points pl H2 other k a d b l q Hc So R C Hq) as [O [O'|W]]; [auto|]. split; [auto|]. right. now rewrite W.
Qed.
End Side.

(** ** Chains of slices that meet exactly *)
Definition segsOf (l : list vertex) : list (vertex * vertex) := match l with [] => [] | v :: vs => openSegs v vs end.

Lemma pathSegs_open l : pathSegs (mkPline false l) = segsOf l.
Proof. unfold pathSegs, segsOf. cbn [vertexes isClosed]. destruct l as [|v [|w vs]]; [reflexivity|reflexivity|]. now rewrite app_nil_r. Qed.

Lemma pathSegs_closed v w vs : pathSegs (mkPline true (v :: w :: vs)) = segsOf ((v :: w :: vs) ++ [v]).
Proof.
  unfold pathSegs, segsOf. cbn [vertexes isClosed]. change ((v :: w :: vs) ++ [v]) with (v :: (w :: vs) ++ v :: []). cbn iota. cbv beta.
  rewrite (openSegs_app v (w :: vs) v []). cbn [openSegs]. reflexivity.
Qed.

(** the trace of a list of vertices: start, bulge, end of every segment *)
Definition traceOf (l : list vertex) : list (vec * R * vec) := map seg3 (segsOf l).

Lemma traceOf_app l1 x l2 : traceOf (l1 ++ x :: l2) = traceOf (l1 ++ [x]) ++ traceOf (x :: l2).
Proof.
  unfold traceOf. rewrite <- map_app. f_equal. destruct l1 as [|v vs]; [reflexivity|]. cbn [app segsOf]. rewrite !openSegs_app. cbn [openSegs]. now rewrite <- app_assoc.
Qed.

Lemma traceOf_last l x y : pos x = pos y -> traceOf (l ++ [x]) = traceOf (l ++ [y]).
Proof.
  intros E. destruct l as [|v vs]; [reflexivity|]. unfold traceOf. cbn [app segsOf]. rewrite !openSegs_app. cbn [openSegs]. rewrite !map_app. f_equal. cbn [map]. unfold seg3. cbn [fst snd]. now rewrite E.
Qed.

(** consecutive lists meet: each ends where the next begins, the last where [z] is *)
Fixpoint meet (ls : list (list vertex)) (z : vec) : Prop :=
  match ls with
  | [] => True
  | l :: ls' => (2 <= length l)%nat /\ pos (last l vdflt) = match ls' with [] => z | l' :: _ => pos (hd vdflt l') end /\ meet ls' z
  end.

Lemma chain_trace ls : forall v, meet ls (pos v) -> traceOf (flat_map (@removelast vertex) ls ++ [v]) = flat_map traceOf ls.
Proof.
  induction ls as [|l ls IH]; intros v H; [reflexivity|]. cbn [meet] in H. destruct H as (L & E & H). cbn [flat_map]. rewrite <- (IH v H). rewrite <- app_assoc.
  assert (El : removelast l ++ [last l vdflt] = l) by (symmetry; apply app_removelast_last; intros ->; cbn in L; lia).
  destruct ls as [|l' ls].
  - cbn [flat_map app]. rewrite <- (traceOf_last _ _ _ E), El. cbn. now rewrite app_nil_r.
  - destruct H as (L' & H'). destruct l' as [|x [|y l']]; [cbn in L'; lia|cbn in L'; lia|]. cbn [flat_map hd] in *. change (removelast (x :: y :: l')) with (x :: removelast (y :: l')). cbn [app].
    rewrite traceOf_app. rewrite <- (traceOf_last _ _ _ E), El. reflexivity.
Qed.

Definition on3 (e : vec * R * vec) (q : vec) : Prop := let '(p, b, p') := e in onSeg (mkVtx p b) (mkVtx p' 0) q.

Lemma on3_seg v1 v2 q : onSeg v1 v2 q <-> on3 (seg3 (v1, v2)) q.
Proof.
  unfold on3, seg3. cbn [fst snd]. rewrite !onSeg_path. unfold segPath. cbn [bulge pos]. reflexivity.
Qed.

Lemma onPath_trace pl q : onPath pl q <-> exists e, In e (trace pl) /\ on3 e q.
Proof.
  unfold onPath, trace. split.
  - intros (v1 & v2 & Hin & O). exists (seg3 (v1, v2)). split; [now apply in_map|now apply on3_seg].
  - intros (e & Hin & O). apply in_map_iff in Hin. destruct Hin as ([v1 v2] & <- & Hin). exists v1, v2. split; [auto|now apply on3_seg].
Qed.

Lemma trace_open l : trace (mkPline false l) = traceOf l.
Proof. unfold trace, traceOf. now rewrite pathSegs_open. Qed.

Lemma on3_rev e q : on3 (rev3 e) q -> on3 e q.
Proof.
  destruct e as [[p b] p']. unfold rev3, on3. intros (t & Ht & H). apply (segPoint_rev _ _ _ _ 0) in H. exists (1 - t). split; [lra|]. rewrite Ropp_involutive in H. exact H.
Qed.

Lemma rev3_rev3 e : rev3 (rev3 e) = e.
Proof. destruct e as [[p b] p']. unfold rev3. now rewrite Ropp_involutive. Qed.

Lemma invert_onPath pl q : onPath (invertDirection pl) q <-> onPath pl q.
Proof.
  rewrite !onPath_trace. split; intros (e & Hin & O).
  - apply (Permutation_in _ (trace_invert_perm pl)) in Hin. apply in_map_iff in Hin. destruct Hin as (e' & <- & Hin). exists e'. split; [auto|now apply on3_rev].
  - exists (rev3 e). split; [|apply on3_rev; now rewrite rev3_rev3]. apply (Permutation_in _ (Permutation_sym (trace_invert_perm pl))). now apply in_map.
Qed.

Section BoolOps.
Context {SL : StdLib} {SLaws : StdLaws SL}.
Context (A B : polyline) (ix : index) (intrs : list pIntr).
Hypothesis (CA : closedPline A) (CB : closedPline B) (IA : indexable A) (SA : smallBulges A) (SB : smallBulges B) (GP : generalPosition A B).

Lemma gp_pair i1 i2 : (i1 < length (vertexes A))%nat -> (i2 < length (vertexes B))%nat -> exactPair (at_ A i1) (at_ A (nextI A i1)) (at_ B i2) (at_ B (nextI B i2)).
Proof.
  intros H1 H2. destruct CA as [HA LA], CB as [HB LB]. destruct (seg_at A i1 HA LA H1) as (<- & <- & I1). destruct (seg_at B i2 HB LB H2) as (<- & <- & I2). now apply (gp_exact A B GP).
Qed.

(** what the intersection search delivers *)
Lemma gp_intersects : exists ix intrs, createApproxSpatialIndex A = Ok ix /\ findIntersects defaultNodeSize A B ix [] [] = Ok (intrs, []) /\
  (forall x, In x intrs -> (sIndex1 x < length (vertexes A))%nat /\ (sIndex2 x < length (vertexes B))%nat /\
     onSeg (vert A (sIndex1 x) 0) (vert A (sIndex1 x) 1) (ipos x) /\ onSeg (vert B (sIndex2 x) 0) (vert B (sIndex2 x) 1) (ipos x)) /\
  (forall i j q, (i < length (vertexes A))%nat -> (j < length (vertexes B))%nat -> onSeg (vert A i 0) (vert A i 1) q -> onSeg (vert B j 0) (vert B j 1) q ->
     In (mkIntr i j q) intrs).
Proof.
  destruct CA as [HA LA], CB as [HB LB].
  destruct (C30_find_intersects A B IA LB) as (ix0 & tested & intrs0 & coincs0 & E1 & E2 & _ & Ht & Ec & keep & Ei & Hk).
  assert (NA : segCount A = length (vertexes A)) by (now rewrite segCount_eq, HA). assert (NB : segCount B = length (vertexes B)) by (now rewrite segCount_eq, HB).
  assert (E0 : coincs0 = []).
  { rewrite Ec. assert (G : forall l, (forall e, In e l -> In e tested) -> flat_map (pairCoinc A B) l = []); [|apply G; auto]. induction l as [|[i1 i2] l IH]; intros H; [reflexivity|]. cbn [flat_map].
    rewrite IH by (intros; apply H; now right). assert (Hin : In (i1, i2) tested) by (apply H; now left). apply Ht in Hin.
    destruct (gp_pair i1 i2 ltac:(lia) ltac:(lia)) as [Eo _]. unfold pairCoinc. rewrite Eo. reflexivity. }
  subst coincs0. rewrite E0 in E2. destruct (C30_sound A B ix0 intrs0 [] IA LB E1 E2) as [Si _].
  exists ix0, intrs0. split; [exact E1|]. split; [exact E2|]. split.
  - intros x Hx. destruct (Si x Hx) as (H1 & H2 & H3). rewrite NA in H1. rewrite NB in H2. destruct (gp_pair _ _ H1 H2) as [_ X]. apply X in H3.
    destruct (seg_at A _ HA LA H1) as (-> & -> & _). destruct (seg_at B _ HB LB H2) as (-> & -> & _). tauto.
  - intros i j q Hi Hj Oi Oj. destruct (seg_at A i HA LA Hi) as (Va & Va' & PA). destruct (seg_at B j HB LB Hj) as (Vb & Vb' & PB).
    assert (CM : common A B q) by (split; [exists (vert A i 0), (vert A i 1)|exists (vert B j 0), (vert B j 1)]; auto). rewrite Va, Va' in Oi. rewrite Vb, Vb' in Oj.
    assert (Bi : Rabs (bulge (at_ A i)) <= 1) by (unfold smallBulges in SA; rewrite List.Forall_forall in SA; apply SA; unfold at_; now apply nth_In).
    assert (Bj : Rabs (bulge (at_ B j)) <= 1) by (unfold smallBulges in SB; rewrite List.Forall_forall in SB; apply SB; unfold at_; now apply nth_In).
    destruct (C30_no_intersect_lost A B i j q IA LB ltac:(lia) ltac:(lia) Bi Bj Oi Oj) as (ix' & tested' & intrs' & coincs' & E1' & E2' & It & _ & L).
    assert (ix' = ix0) by congruence. subst ix'. assert (intrs' = intrs0) by congruence. subst intrs'.
    assert (NS : forall x y, far x y -> same y x = false).
    { intros x y F. apply far_sym in F. apply not_true_is_false. intros S. unfold same in S. apply fuzzyEqual_R in S. destruct F; lra. }
    assert (P : In (mkIntr i j q) (pairPoints A B (i, j))).
    { unfold pairPoints. apply in_map. apply filter_In. split; [apply (gp_pair i j Hi Hj); auto|].
      rewrite (NS q (pos (at_ A i))) by (apply (gp_first A B GP); [unfold at_; now apply nth_In|exact CM]).
      rewrite (NS q (pos (at_ B j))) by (apply (gp_second A B GP); [unfold at_; now apply nth_In|exact CM]). reflexivity. }
    destruct (L _ P) as [H|[(i1 & i2 & p & p' & _ & Ho & _) HS]]; [exact H|]. exfalso. cbn [ipos sIndex1 sIndex2] in HS.
    assert (Hn1 : (nextI A i < length (vertexes A))%nat) by (apply seg_in_range; [auto|lia]). assert (Hn2 : (nextI B j < length (vertexes B))%nat) by (apply seg_in_range; [auto|lia]).
    destruct HS as [HS|HS].
    + rewrite (NS (pos (at_ A (nextI A i))) q) in HS; [discriminate|]. apply far_sym, (gp_first A B GP); [unfold at_; now apply nth_In|exact CM].
    + rewrite (NS (pos (at_ B (nextI B j))) q) in HS; [discriminate|]. apply far_sym, (gp_second A B GP); [unfold at_; now apply nth_In|exact CM].
Qed.

(** ** The slices that are collected *)
(** a slice made of parts of A that satisfy [fA] relative to B and parts of B that satisfy [fB] relative to A *)
Definition kept (fA fB : Z -> bool) (q : vec) : Prop :=
  (onPath A q /\ (onPath B q \/ fA (getWindingNumber B q) = true)) \/ (onPath B q /\ (onPath A q \/ fB (getWindingNumber A q) = true)).

Definition goodPart (fA fB : Z -> bool) (s : polyline) : Prop :=
  isClosed s = false /\ (2 <= length (vertexes s))%nat /\ common A B (pos (hd vdflt (vertexes s))) /\ common A B (pos (last (vertexes s) vdflt)) /\
  forall q, onPath s q -> kept fA fB q.

Lemma last_rev (l : list vertex) d : l <> [] -> last (rev l) d = hd d l.
Proof. destruct l as [|v l]; [congruence|]. intros _. cbn [rev]. apply last_last. Qed.

Lemma pos_hd l : pos (hd vdflt l) = hd (pos vdflt) (map pos l).
Proof. destruct l; reflexivity. Qed.
Lemma pos_last l : pos (last l vdflt) = last (map pos l) (pos vdflt).
Proof. induction l as [|v [|w l] IH]; [reflexivity|reflexivity|exact IH]. Qed.
Lemma hd_rev_vec (l : list vec) d : hd d (rev l) = last l d.
Proof. destruct l as [|x l] using rev_ind; [reflexivity|]. rewrite rev_app_distr, last_last. reflexivity. Qed.
Lemma last_rev_vec (l : list vec) d : last (rev l) d = hd d l.
Proof. destruct l as [|v l]; [reflexivity|]. cbn [rev hd]. apply last_last. Qed.

Lemma invert_goodPart fA fB s : goodPart fA fB s -> goodPart fA fB (invertDirection s).
Proof.
  intros (H1 & H2 & H3 & H4 & H5). destruct (C22_closed_flag_and_size s) as (E1 & E2 & E3). replace (length (vertexes s) <? 2)%nat with false in E3 by (symmetry; apply Nat.ltb_ge; lia).
  split; [congruence|]. split; [lia|]. split; [|split].
  - rewrite pos_hd, E3, hd_rev_vec, <- pos_last. exact H4.
  - rewrite pos_last, E3, last_rev_vec, <- pos_hd. exact H3.
  - intros q Hq. apply H5. now apply invert_onPath.
Qed.

Lemma collected_parts ci fA fB opp : (exists cw1 cw2, ci = mkInfo [] intrs [] [] [] cw1 cw2) ->
  (forall x, In x intrs -> (sIndex1 x < length (vertexes A))%nat /\ (sIndex2 x < length (vertexes B))%nat /\
     onSeg (vert A (sIndex1 x) 0) (vert A (sIndex1 x) 1) (ipos x) /\ onSeg (vert B (sIndex2 x) 0) (vert B (sIndex2 x) 1) (ipos x)) ->
  (forall i j q, (i < length (vertexes A))%nat -> (j < length (vertexes B))%nat -> onSeg (vert A i 0) (vert A i 1) q -> onSeg (vert B j 0) (vert B j 1) q ->
     In (mkIntr i j q) intrs) ->
  forall cs, collectSlices A B ci (fun p => fA (getWindingNumber B p)) (fun p => fB (getWindingNumber A p)) opp = Ok cs ->
  List.Forall (goodPart fA fB) (slicesRemaining cs).
Proof.
  intros (cw1 & cw2 & ->) Hs Hc cs E. unfold collectSlices in E. destruct CA as [HA LA], CB as [HB LB].
  set (ci := mkInfo [] intrs [] [] [] cw1 cw2) in *.
  assert (EC1 : cuts ci false = map (fun x => (sIndex1 x, mkSP (ipos x) false)) intrs) by (unfold cuts, cutsFirst; cbn [ciIntrs ciStarts ciEnds map ci]; now rewrite !app_nil_r).
  assert (EC2 : cuts ci true = map (fun x => (sIndex2 x, mkSP (ipos x) false)) intrs) by (unfold cuts, cutsSecond; cbn [ciIntrs ciStarts ciEnds ciOpposing combine flat_map map ci]; now rewrite !app_nil_r).
  assert (CM : forall x, In x intrs -> common A B (ipos x)).
  { intros x Hx. destruct (Hs x Hx) as (K1 & K2 & O1 & O2). split; [exists (vert A (sIndex1 x) 0), (vert A (sIndex1 x) 1)|exists (vert B (sIndex2 x) 0), (vert B (sIndex2 x) 1)]; (split; [|auto]); apply seg_at; auto. }
  assert (S1 : forall k c, In (k, c) (cuts ci false) -> (k < length (vertexes A))%nat /\ spStart c = false /\ onSeg (vert A k 0) (vert A k 1) (spPos c) /\ common A B (spPos c)).
  { intros k c Hin. rewrite EC1 in Hin. apply in_map_iff in Hin. destruct Hin as (x & Ex & Hx). injection Ex as <- <-. cbn [spStart spPos]. destruct (Hs x Hx) as (K1 & K2 & O1 & O2). auto. }
  assert (S2 : forall k c, In (k, c) (cuts ci true) -> (k < length (vertexes B))%nat /\ spStart c = false /\ onSeg (vert B k 0) (vert B k 1) (spPos c) /\ common A B (spPos c)).
  { intros k c Hin. rewrite EC2 in Hin. apply in_map_iff in Hin. destruct Hin as (x & Ex & Hx). injection Ex as <- <-. cbn [spStart spPos]. destruct (Hs x Hx) as (K1 & K2 & O1 & O2). auto. }
  assert (P1 : forall k q, (k < length (vertexes A))%nat -> onSeg (vert A k 0) (vert A k 1) q -> onPath B q -> In (k, mkSP q false) (cuts ci false)).
  { intros k q Hk Ho (b1 & b2 & Hb & Ob). apply at_seg in Hb; [|auto]. destruct Hb as (j & Hj & -> & ->). rewrite EC1. apply in_map_iff. exists (mkIntr k j q). split; [reflexivity|]. now apply Hc. }
  assert (P2 : forall k q, (k < length (vertexes B))%nat -> onSeg (vert B k 0) (vert B k 1) q -> onPath A q -> In (k, mkSP q false) (cuts ci true)).
  { intros k q Hk Ho (b1 & b2 & Hb & Ob). apply at_seg in Hb; [|auto]. destruct Hb as (j & Hj & -> & ->). rewrite EC2. apply in_map_iff. exists (mkIntr j k q). split; [reflexivity|]. now apply Hc. }
  assert (O1 : okCuts ci false (length (vertexes A))) by (split; [reflexivity|split; [reflexivity|]]; intros k p H; now apply (S1 k p)).
  assert (O2 : okCuts ci true (length (vertexes B))) by (split; [reflexivity|split; [reflexivity|]]; intros k p H; now apply (S2 k p)).
  assert (HX2 : forall q, common A B q <-> onPath B q /\ onPath A q) by (unfold common; tauto).
  assert (HX1 : forall q, common A B q <-> onPath A q /\ onPath B q) by (unfold common; tauto).
  pose proof (gp_first A B GP) as G1. pose proof (gp_second A B GP) as G2. pose proof (gp_apart A B GP) as G3.
  destruct (C33_exact A ci false (fun p => fA (getWindingNumber B p)) [] O1 (side_sep A (common A B) _ CA G1 S1)) as (sA & EA & PA).
  destruct (C33_exact B ci true (fun p => fB (getWindingNumber A p)) [] O2 (side_sep B (common A B) _ CB G2 S2)) as (sB & EB & PB).
  rewrite EA, EB in E. cbn [bind app ciSlices ciOpposing invertOpposing ci] in E. injection E as <-. cbn [slicesRemaining].
  assert (GA : List.Forall (goodPart fA fB) (map (mkPline false) sA)).
  { apply List.Forall_forall. intros s Hin. apply in_map_iff in Hin. destruct Hin as (l & <- & Hin). apply (Permutation_in _ PA) in Hin. apply in_flat_map in Hin. destruct Hin as (k & Hk & Hin).
    apply in_seq in Hk. apply filter_In in Hin. destruct Hin as [Hl Ha].
    destruct (side_stretch A B (common A B) _ CA SA SB G1 G3 S1 P1 k l fA ltac:(lia) Hl Ha) as (X1 & X2 & L & Q).
    split; [reflexivity|]. cbn [vertexes]. split; [auto|]. split; [auto|]. split; [auto|]. intros q Hq. left. now apply Q. }
  assert (GB : List.Forall (goodPart fA fB) (map (mkPline false) sB)).
  { apply List.Forall_forall. intros s Hin. apply in_map_iff in Hin. destruct Hin as (l & <- & Hin). apply (Permutation_in _ PB) in Hin. apply in_flat_map in Hin. destruct Hin as (k & Hk & Hin).
    apply in_seq in Hk. apply filter_In in Hin. destruct Hin as [Hl Ha].
    destruct (side_stretch B A (common A B) _ CB SB SA G2 G3 S2 P2 k l fB ltac:(lia) Hl Ha) as (X1 & X2 & L & Q).
    split; [reflexivity|]. cbn [vertexes]. split; [auto|]. split; [auto|]. split; [auto|]. intros q Hq. right. now apply Q. }
  apply Forall_app. split; [exact GA|]. generalize (negb (Bool.eqb opp (plineOpposingDirections ci))) as iv. intros iv. replace (if iv then [] else []) with (@nil polyline) by (destruct iv; reflexivity). rewrite app_nil_r. destruct iv; [|auto]. apply List.Forall_forall. intros s Hin. apply in_map_iff in Hin. destruct Hin as (s' & <- & Hin). apply invert_goodPart. rewrite List.Forall_forall in GB. auto.
Qed.

(** ** Stitching *)
Lemma stitched_parts fA fB slices sel rem : List.Forall (goodPart fA fB) slices -> (Z.of_nat (length slices) <= 2 ^ 24)%Z -> okSelector sel ->
  stitchOrderedSlices slices sel sliceJoinThreshold = Ok rem -> forall p, In p rem -> forall q, onPath p q -> kept fA fB q.
Proof.
  intros Hg Hlen Hsel E p Hp q Hq. rewrite List.Forall_forall in Hg.
  destruct (C34_stitch slices sel sliceJoinThreshold sjt_pos Hlen) as (chains & E' & _ & Hb & Hr & _); auto.
  { intros s Hs. destruct (Hg s Hs) as (_ & L & _). lia. }
  rewrite E in E'. injection E' as ->. apply in_flat_map in Hp. destruct Hp as (ch & Hch & Hp). unfold closedChain in Hp.
  destruct (Nat.leb_spec 2 (length (chainVertexes slices ch))) as [L2|L2]; [|destruct Hp]. destruct Hp as [<-|[]].
  rewrite List.Forall_forall in Hr. specialize (Hr ch Hch). unfold ring in Hr. destruct ch as [|i0 ch0]; [contradiction|]. set (ch := i0 :: ch0) in *. destruct Hr as [Hj Hlast].
  assert (Hin : forall i, In i ch -> (i < length slices)%nat) by (intros i Hi; apply Hb; apply in_concat; exists ch; auto).
  assert (HS : forall i, In i ch -> goodPart fA fB (sliceAt slices i)) by (intros i Hi; apply Hg; unfold sliceAt; apply nth_In; now apply Hin).
  assert (J : forall i j, In i ch -> In j ch -> joins slices sliceJoinThreshold i j -> endOf slices i = startOf slices j).
  { intros i j Hi Hj' [D1 D2]. rewrite sjt_R in D1, D2. destruct (HS i Hi) as (_ & _ & _ & C1 & _). destruct (HS j Hj') as (_ & _ & C2 & _).
    destruct (Classical_Prop.classic (endOf slices i = startOf slices j)) as [|N]; [auto|]. destruct (gp_apart A B GP _ _ C1 C2 N) as [W|W]; unfold endOf, startOf in D1, D2; lra. }
  assert (M : forall i l, (forall j, In j (i :: l) -> In j ch) -> (forall l1 a b l2, i :: l = l1 ++ a :: b :: l2 -> joins slices sliceJoinThreshold a b) ->
     joins slices sliceJoinThreshold (last l i) i0 -> meet (map (fun i => vertexes (sliceAt slices i)) (i :: l)) (startOf slices i0)).
  { intros i l. revert i. induction l as [|j l IH]; intros i Hi Hjj Hl; cbn [map meet].
    - split; [apply HS, Hi; now left|]. split; [|exact I]. apply J; [apply Hi; now left|now left|exact Hl].
    - split; [apply HS, Hi; now left|]. split; [apply (J i j); [apply Hi; now left|apply Hi; right; now left|apply (Hjj [] i j l); reflexivity]|]. apply IH.
      + intros k Hk. apply Hi. now right.
      + intros l1 a b l2 El. apply (Hjj (i :: l1) a b l2). cbn. now rewrite El.
      + destruct l as [|n l]; [exact Hl|]. rewrite (last_default (n :: l) j i) by discriminate. exact Hl. }
  specialize (M i0 ch0 (fun j H => H) Hj Hlast). fold ch in M.
  assert (EV : chainVertexes slices ch = flat_map (@removelast vertex) (map (fun i => vertexes (sliceAt slices i)) ch)) by (unfold chainVertexes; now rewrite flat_map_concat_map, flat_map_concat_map, map_map).
  assert (EH : startOf slices i0 = pos (hd vdflt (chainVertexes slices ch))).
  { unfold startOf, chainVertexes, ch. cbn [flat_map]. destruct (HS i0 (or_introl eq_refl)) as (_ & L & _). destruct (vertexes (sliceAt slices i0)) as [|x [|y l]]; [cbn in L; lia|cbn in L; lia|]. reflexivity. }
  rewrite EH in M. apply chain_trace in M. rewrite <- EV in M.
  apply onPath_trace in Hq. destruct Hq as (e & He & O). unfold trace in He. destruct (chainVertexes slices ch) as [|v [|w vs]] eqn:Ev; [cbn in L2; lia|cbn in L2; lia|]. cbn [hd] in M.
  rewrite pathSegs_closed in He. change (map seg3 (segsOf ((v :: w :: vs) ++ [v]))) with (traceOf ((v :: w :: vs) ++ [v])) in He. rewrite M in He.
  apply in_flat_map in He. destruct He as (l & Hl & He). apply in_map_iff in Hl. destruct Hl as (i & <- & Hi). destruct (HS i Hi) as (Hc & _ & _ & _ & Hk). apply Hk. apply onPath_trace. exists e. split; [|auto].
  destruct (sliceAt slices i) as [c l0]. cbn [isClosed vertexes] in *. subst c. now rewrite trace_open.
Qed.
End BoolOps.

(** ** The property *)
(** where the boundary of the result may run: on A relative to B, on B relative to A *)
Definition boundaryOK (mode : combineMode) (A B : polyline) (q : vec) : Prop :=
  match mode with
  | Union => (onPath A q /\ ~ insideOf B q) \/ (onPath B q /\ ~ insideOf A q)
  | Intersect => (onPath A q /\ ~ outsideOf B q) \/ (onPath B q /\ ~ outsideOf A q)
  | Exclude => (onPath A q /\ ~ insideOf B q) \/ (onPath B q /\ ~ outsideOf A q)
  | XOR => onPath A q \/ onPath B q
  end.

Theorem C50_boundary {SL : StdLib} {SLaws : StdLaws SL} A B mode : closedPline A -> closedPline B -> indexable A ->
  (10 * Z.of_nat (length (vertexes A)) * Z.of_nat (length (vertexes B)) <= 2 ^ 24)%Z ->
  smallBulges A -> smallBulges B -> generalPosition A B -> (exists q, common A B q) ->
  exists r, combinePolylines A B mode = Ok r /\
    forall p, In p (remaining r) \/ In p (subtracted r) -> forall q, onPath p q -> boundaryOK mode A B q.
Proof.
  intros CA CB IA Hsz SA SB GP (x0 & X1 & X2). destruct (C36_returns A B mode IA CA CB Hsz) as (r & Er & _). exists r. split; [exact Er|].
  destruct (gp_intersects A B CA CB IA SA SB GP) as (ix & intrs & E1 & E2 & Hs & Hc).
  assert (Hne : intrs <> []).
  { destruct X1 as (a1 & a2 & Ha & Oa). destruct X2 as (b1 & b2 & Hb & Ob). apply at_seg in Ha; [|apply CA]. apply at_seg in Hb; [|apply CB].
    destruct Ha as (i & Hi & -> & ->). destruct Hb as (j & Hj & -> & ->). intros N. specialize (Hc i j x0 Hi Hj Oa Ob). rewrite N in Hc. destruct Hc. }
  set (ci := mkInfo [] intrs [] [] [] (getArea A <? t0)%t (getArea B <? t0)%t).
  assert (OI : okInfo A B ci).
  { destruct (process_ok A B IA (proj2 CB)) as (ix' & ci' & E1' & E2' & H). rewrite E1 in E1'. injection E1' as <-. unfold processForCombine in E2'. rewrite E2 in E2'. cbn [bind] in E2'. injection E2' as <-. exact H. }
  assert (K : forall fA fB opp sel cs rem, collectSlices A B ci (fun p => fA (getWindingNumber B p)) (fun p => fB (getWindingNumber A p)) opp = Ok cs -> okSelector sel ->
    stitchOrderedSlices (slicesRemaining cs) sel sliceJoinThreshold = Ok rem -> forall p, In p rem -> forall q, onPath p q -> kept A B fA fB q).
  { intros fA fB opp sel cs rem Ecs Hsel Erem. destruct (collect_ok A B ci (fun p => fA (getWindingNumber B p)) (fun p => fB (getWindingNumber A p)) opp OI) as (cs' & Ecs' & _ & Lcs).
    rewrite Ecs in Ecs'. injection Ecs' as <-. apply (stitched_parts A B GP fA fB (slicesRemaining cs) sel); auto; [|lia].
    apply (collected_parts A B intrs CA CB SA SB GP ci fA fB opp); auto. exists (getArea A <? t0)%t, (getArea B <? t0)%t. reflexivity. }
  destruct C34_selectors as (_ & SelU & SelX).
  unfold combinePolylines in Er. rewrite E1 in Er. cbn [bind] in Er. unfold processForCombine in Er. rewrite E2 in Er. cbn [bind] in Er. fold ci in Er.
  apply bind_inv in Er. destruct Er as (ia & _ & Er). apply bind_inv in Er. destruct Er as (ib & _ & Er).
  assert (EX : completelyCoincident ci = false) by reflexivity. rewrite EX in Er.
  assert (EY : anyIntersects ci = true). { unfold anyIntersects. cbn [ci ciSlices ciIntrs length Nat.eqb negb orb]. destruct intrs; [congruence|reflexivity]. }
  rewrite EY in Er. cbn [negb] in Er.
  set (inn := fun w => negb (w =? 0)%Z). set (out := fun w => negb (negb (w =? 0)%Z)).
  assert (Kin : forall pl q, onPath pl q \/ inn (getWindingNumber pl q) = true -> ~ outsideOf pl q).
  { intros pl q [O|W] [N W']; [auto|]. unfold inn in W. rewrite W' in W. discriminate. }
  assert (Kout : forall pl q, onPath pl q \/ out (getWindingNumber pl q) = true -> ~ insideOf pl q).
  { intros pl q [O|W] [N W']; [auto|]. unfold out in W. rewrite negb_involutive in W. apply Z.eqb_eq in W. auto. }
  destruct mode.
  - apply bind_inv in Er. destruct Er as (cs & Ecs & Er). apply bind_inv in Er. destruct Er as (rem & Erem & Er). injection Er as <-.
    intros p Hp q Hq. assert (Hr : In p rem) by (unfold splitByOrientation in Hp; cbn [remaining subtracted] in Hp; rewrite !filter_In in Hp; tauto).
    destruct (K out out false _ cs rem Ecs (SelU _) Erem p Hr q Hq) as [[O H]|[O H]]; [left|right]; split; auto.
  - apply bind_inv in Er. destruct Er as (cs & Ecs & Er). apply bind_inv in Er. destruct Er as (rem & Erem & Er). injection Er as <-.
    intros p Hp q Hq. assert (Hr : In p rem) by (cbn [remaining subtracted In] in Hp; tauto).
    destruct (K out inn true _ cs rem Ecs (SelX _ _ _) Erem p Hr q Hq) as [[O H]|[O H]]; [left|right]; split; auto.
  - apply bind_inv in Er. destruct Er as (cs & Ecs & Er). apply bind_inv in Er. destruct Er as (rem & Erem & Er). injection Er as <-.
    intros p Hp q Hq. assert (Hr : In p rem) by (cbn [remaining subtracted In] in Hp; tauto).
    destruct (K inn inn false _ cs rem Ecs (SelU _) Erem p Hr q Hq) as [[O H]|[O H]]; [left|right]; split; auto.
  - apply bind_inv in Er. destruct Er as (cs & Ecs & Er). apply bind_inv in Er. destruct Er as (rem & Erem & Er). apply bind_inv in Er. destruct Er as (cs2 & Ecs2 & Er).
    apply bind_inv in Er. destruct Er as (rem2 & Erem2 & Er). injection Er as <-.
    intros p Hp q Hq. cbn [remaining subtracted In] in Hp. destruct Hp as [Hp|[]]. apply in_app_or in Hp. cbn. destruct Hp as [Hr|Hr].
    + destruct (K out inn true _ cs rem Ecs (SelX _ _ _) Erem p Hr q Hq) as [[O H]|[O H]]; auto.
    + destruct (K inn out true _ cs2 rem2 Ecs2 (SelX _ _ _) Erem2 p Hr q Hq) as [[O H]|[O H]]; auto.
Qed.

(** ** Polygons: when the pairwise intersection is exact *)
(** two line segments: either exactly parallel and apart, or crossing at an angle such that the crossing point of the supporting lines is on
    both segments or clearly off one of them (the tolerance is 1e-8 in the fraction along the segment) *)
Definition decidedLines (v1 v2 u1 u2 : vertex) : Prop :=
  isLine v1 /\ isLine u1 /\
  ((cross (pos v1) (pos v2) (pos u1) (pos u2) = 0 /\ eps < Rabs (cross (pos v1) (pos v2) (pos u1) (pos v1))) \/
   (eps < Rabs (cross (pos v1) (pos v2) (pos u1) (pos u2)) /\
    forall s t, lerp (pos v1) (pos v2) s = lerp (pos u1) (pos u2) t -> - eps <= s <= 1 + eps -> - eps <= t <= 1 + eps -> 0 <= s <= 1 /\ 0 <= t <= 1)).

Lemma decided_exact v1 v2 u1 u2 : decidedLines v1 v2 u1 u2 -> exactPair v1 v2 u1 u2.
Proof.
  intros (Lv & Lu & [[C0 C1]|[C D]]); unfold exactPair, overlapsOf, crossPoints.
  - assert (E : intrPlineSegs v1 v2 u1 u2 = NoIntersect).
    { rewrite intr_ll by auto. unfold intrLineSeg2LineSeg2, perpDot, vsub, vadd, vscale. rcbn.
      fold (cross (pos v1) (pos v2) (pos u1) (pos u2)). fold (cross (pos v1) (pos v2) (pos u1) (pos v1)). fold (cross (pos u1) (pos u2) (pos u1) (pos v1)). fold eps.
      rewrite C0, Rabs_R0. rewrite (proj2 (Rltb_false _ _)) by (unfold eps; lra). rewrite (proj2 (Rltb_spec _ _) C1). reflexivity. }
    rewrite E. split; [reflexivity|]. intros q. split; [intros []|]. intros [(a & Ha & Qa) (b & Hb & Qb)]. apply segPoint_line in Qa; auto. apply segPoint_line in Qb; auto. exfalso.
    assert (Z : cross (pos v1) (pos v2) (pos u1) (pos v1) = 0).
    { rewrite Qa in Qb. pose proof (f_equal vx Qb) as X. pose proof (f_equal vy Qb) as Y. unfold lerp in X, Y. cbn [vx vy] in X, Y. unfold cross in *.
      set (x1 := vx (pos v1)) in *. set (y1 := vy (pos v1)) in *. set (x2 := vx (pos v2)) in *. set (y2 := vy (pos v2)) in *.
      set (x3 := vx (pos u1)) in *. set (y3 := vy (pos u1)) in *. set (x4 := vx (pos u2)) in *. set (y4 := vy (pos u2)) in *.
      assert (X' : x1 - x3 = b * (x4 - x3) - a * (x2 - x1)) by lra. assert (Y' : y1 - y3 = b * (y4 - y3) - a * (y2 - y1)) by lra. rewrite X', Y'. transitivity (b * ((x2 - x1) * (y4 - y3) - (y2 - y1) * (x4 - x3))); [ring|rewrite C0; ring]. }
    rewrite Z, Rabs_R0 in C1. unfold eps in C1. lra.
  - destruct (C20_line_line v1 v2 u1 u2 Lv Lu C) as [S K]. cbv zeta in S, K. destruct (intrPlineSegs v1 v2 u1 u2) as [|p|p q|p q|p q] eqn:E; try contradiction.
    + split; [reflexivity|]. intros q. split; [intros []|]. intros [O1 O2]. discriminate (K q O1 O2).
    + split; [reflexivity|]. intros q. split.
      * intros [<-|[]]. destruct S as [(s & Hs & Es) (t & Ht & Et)]. unfold inRange in Hs, Ht. destruct (D s t ltac:(congruence) Hs Ht) as [Hs' Ht']. split; apply onSeg_path; [exists s|exists t]; (split; [auto|]); rewrite segPath_line by auto; auto.
      * intros [O1 O2]. specialize (K q O1 O2). injection K as ->. now left.
Qed.

(** *** A concrete case: two overlapping squares *)
Definition square (x y w : R) : polyline := mkPline true [mkVertex x y 0; mkVertex (x + w) y 0; mkVertex (x + w) (y + w) 0; mkVertex x (y + w) 0].

Lemma square_onSeg v1 v2 q : isLine v1 -> onSeg v1 v2 q -> exists t, 0 <= t <= 1 /\ vx q = vx (pos v1) + t * (vx (pos v2) - vx (pos v1)) /\ vy q = vy (pos v1) + t * (vy (pos v2) - vy (pos v1)).
Proof. intros L O. apply onSeg_path in O. destruct O as (t & Ht & ->). exists t. split; [auto|]. rewrite segPath_line by auto. split; reflexivity. Qed.

Lemma square_segs x y w v1 v2 : In (v1, v2) (pathSegs (square x y w)) ->
  isLine v1 /\ ((v1 = mkVertex x y 0 /\ v2 = mkVertex (x + w) y 0) \/ (v1 = mkVertex (x + w) y 0 /\ v2 = mkVertex (x + w) (y + w) 0) \/
   (v1 = mkVertex (x + w) (y + w) 0 /\ v2 = mkVertex x (y + w) 0) \/ (v1 = mkVertex x (y + w) 0 /\ v2 = mkVertex x y 0)).
Proof.
  intros [E|[E|[E|[E|[]]]]]; injection E as <- <-; (split; [unfold isLine; cbn; rewrite Rabs_R0; lra|auto]).
Qed.

Example C50_squares : let A := square 0 0 2 in let B := square 1 1 2 in
  closedPline A /\ closedPline B /\ indexable A /\ smallBulges A /\ smallBulges B /\ generalPosition A B /\ common A B (mkV 2 1) /\ common A B (mkV 1 2).
Proof.
  intros A B.
  assert (SM : forall x y w, smallBulges (square x y w)) by (intros; repeat constructor; cbn; rewrite Rabs_R0; lra).
  assert (CM : forall q, common A B q -> q = mkV 2 1 \/ q = mkV 1 2).
  { intros q [(a1 & a2 & Ha & Oa) (b1 & b2 & Hb & Ob)]. destruct (square_segs _ _ _ _ _ Ha) as [La Ha']. destruct (square_segs _ _ _ _ _ Hb) as [Lb Hb'].
    destruct (square_onSeg a1 a2 q La Oa) as (s & Hs & Xs & Ys). destruct (square_onSeg b1 b2 q Lb Ob) as (t & Ht & Xt & Yt). destruct q as [qx qy]. cbn [vx vy] in *.
    clear Ha Hb Oa Ob La Lb.
    destruct Ha' as [[-> ->]|[[-> ->]|[[-> ->]|[-> ->]]]]; destruct Hb' as [[-> ->]|[[-> ->]|[[-> ->]|[-> ->]]]]; cbn in Xs, Ys, Xt, Yt;
      first [exfalso; lra|left; f_equal; lra|right; f_equal; lra]. }
  split; [split; [reflexivity|cbn; lia]|]. split; [split; [reflexivity|cbn; lia]|]. split; [split; [cbn; lia|split; [cbn; lia|left; cbn; lia]]|]. split; [apply SM|]. split; [apply SM|].
  split; [|split].
  - split.
    + intros a1 a2 b1 b2 Ha Hb. apply decided_exact. destruct (square_segs _ _ _ _ _ Ha) as [La Ha']. destruct (square_segs _ _ _ _ _ Hb) as [Lb Hb']. split; [auto|]. split; [auto|]. clear Ha Hb La Lb.
      destruct Ha' as [[-> ->]|[[-> ->]|[[-> ->]|[-> ->]]]]; destruct Hb' as [[-> ->]|[[-> ->]|[[-> ->]|[-> ->]]]]; cbn [pos mkVertex]; unfold cross, eps; cbn [vx vy];
      first [left; split; [lra|]; first [rewrite Rabs_right by lra; lra|rewrite Rabs_left by lra; lra]
            |right; split; [first [rewrite Rabs_right by lra; lra|rewrite Rabs_left by lra; lra]|]; intros s t E Hs Ht;
             pose proof (f_equal vx E) as X; pose proof (f_equal vy E) as Y; unfold lerp in X, Y; cbn [vx vy] in X, Y; lra].
    + split; [|split].
      * intros v1 v2 H. destruct (square_segs _ _ _ _ _ H) as [_ H']. unfold far. destruct H' as [[-> ->]|[[-> ->]|[[-> ->]|[-> ->]]]]; cbn; first [left; rewrite Rabs_right by lra; lra|left; rewrite Rabs_left by lra; lra|right; rewrite Rabs_right by lra; lra|right; rewrite Rabs_left by lra; lra].
      * intros v q H Hq. unfold far. apply CM in Hq. destruct H as [<-|[<-|[<-|[<-|[]]]]]; destruct Hq as [->| ->]; cbn; first [left; rewrite Rabs_right by lra; lra|left; rewrite Rabs_left by lra; lra|right; rewrite Rabs_right by lra; lra|right; rewrite Rabs_left by lra; lra].
      * intros v1 v2 q H _ _. destruct (square_segs _ _ _ _ _ H) as [L _]. unfold longArc. repeat split; intros; contradiction.
    + split; [|split].
      * intros v1 v2 H. destruct (square_segs _ _ _ _ _ H) as [_ H']. unfold far. destruct H' as [[-> ->]|[[-> ->]|[[-> ->]|[-> ->]]]]; cbn; first [left; rewrite Rabs_right by lra; lra|left; rewrite Rabs_left by lra; lra|right; rewrite Rabs_right by lra; lra|right; rewrite Rabs_left by lra; lra].
      * intros v q H Hq. unfold far. apply CM in Hq. destruct H as [<-|[<-|[<-|[<-|[]]]]]; destruct Hq as [->| ->]; cbn; first [left; rewrite Rabs_right by lra; lra|left; rewrite Rabs_left by lra; lra|right; rewrite Rabs_right by lra; lra|right; rewrite Rabs_left by lra; lra].
      * intros v1 v2 q H _ _. destruct (square_segs _ _ _ _ _ H) as [L _]. unfold longArc. repeat split; intros; contradiction.
    + intros q q' Hq Hq' N. apply CM in Hq, Hq'. unfold wellApart. destruct Hq as [->| ->]; destruct Hq' as [->| ->]; try congruence; cbn [vx vy]; left; [rewrite Rabs_right by lra; lra|rewrite Rabs_left by lra; lra].
  - assert (L : forall x y, isLine (mkVertex x y 0)) by (intros; unfold isLine; cbn; rewrite Rabs_R0; lra). split.
    + eexists. eexists. split; [right; left; reflexivity|]. apply onSeg_path. exists (1 / 2). split; [lra|]. rewrite segPath_line by apply L. unfold lerp. cbn. apply vec_eq; cbn; lra.
    + eexists. eexists. split; [left; reflexivity|]. apply onSeg_path. exists (1 / 2). split; [lra|]. rewrite segPath_line by apply L. unfold lerp. cbn. apply vec_eq; cbn; lra.
  - assert (L : forall x y, isLine (mkVertex x y 0)) by (intros; unfold isLine; cbn; rewrite Rabs_R0; lra). split.
    + eexists. eexists. split; [right; right; left; reflexivity|]. apply onSeg_path. exists (1 / 2). split; [lra|]. rewrite segPath_line by apply L. unfold lerp. cbn. apply vec_eq; cbn; lra.
    + eexists. eexists. split; [right; right; right; left; reflexivity|]. apply onSeg_path. exists (1 / 2). split; [lra|]. rewrite segPath_line by apply L. unfold lerp. cbn. apply vec_eq; cbn; lra.
Qed.
