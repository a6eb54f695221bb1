(** * C57: a parallel offset consists of the kept stretches of the raw offset, whole and nothing else *)
From Coq Require Import ZArith Reals Lra Lia List Bool Arith Permutation Sorted.
From Coquelicot Require Import Coquelicot.
From Verif Require Import Base Num MathUtils PlineSegment SpatialIndex Polyline Intersects Combine Offset StdLaws RGeom Spec PropsMath ArcGeom Polar PropsSegment PropsClosest PropsIntr PropsPlineIntr PropsPolyline PropsWinding PropsRegion PropsPlineIndex PropsFindIntr PropsSelfIntr PropsCoincident PropsSlices PropsStitch PropsCombine PropsPieces PropsTrace PropsBoolOps PropsOffsetStitch PropsOffsetSlices PropsParallel PropsParallelTotal PropsOffsetRuns PropsOffsetCuts PropsCover PropsRunPoints Turning PropsEuler PropsBalance PropsRegionOps PropsOffsetClose.
Import ListNotations.
Open Scope R_scope.

(** ** Stitching slices that meet exactly *)
(** an open piece with an index, from a point of [X] to a point of [X] *)
Definition goodPiece (X : vec -> Prop) (s : openSlice) : Prop :=
  isClosed (slPline s) = false /\ (2 <= length (vertexes (slPline s)))%nat /\
  (pos (hd vdflt (vertexes (slPline s))) = pos (last (vertexes (slPline s)) vdflt) -> (3 <= length (vertexes (slPline s)))%nat) /\
  X (pos (hd vdflt (vertexes (slPline s)))) /\ X (pos (last (vertexes (slPline s)) vdflt)) /\ intrStartIndex s <> None.

Lemma apart_eq (X : vec -> Prop) x y : (forall q q', X q -> X q' -> q <> q' -> wellApart q q') -> X x -> X y -> Rabs (vx x - vx y) <= 2 / 10000 -> Rabs (vy x - vy y) <= 2 / 10000 -> x = y.
Proof.
  intros H Hx Hy H1 H2. destruct (Classical_Prop.classic (x = y)) as [|N]; [auto|]. destruct (H x y Hx Hy N); lra.
Qed.

Lemma removelast_len {A} (l : list A) : length (removelast l) = (length l - 1)%nat.
Proof. destruct l as [|a l]; [reflexivity|]. rewrite removelast_firstn_len, firstn_length. cbn [length]. lia. Qed.

Lemma hd_removelast (l : list vertex) : (2 <= length l)%nat -> hd vdflt (removelast l) = hd vdflt l.
Proof. destruct l as [|a [|b l]]; cbn; try lia; reflexivity. Qed.

(** closing a list of vertices that ends where it starts does not change its segments *)
Lemma closed_trace vs : (3 <= length vs)%nat -> pos (hd vdflt vs) = pos (last vs vdflt) -> trace (mkPline true (removelast vs)) = traceOf vs.
Proof.
  intros L E. assert (Hv : vs = removelast vs ++ [last vs vdflt]) by (apply app_removelast_last; intros ->; cbn in L; lia).
  pose proof (removelast_len vs) as RL. pose proof (hd_removelast vs ltac:(lia)) as RH. rewrite Hv at 2. unfold trace. destruct (removelast vs) as [|v [|w r]] eqn:Er; [cbn in RL; lia|cbn in RL; lia|].
  rewrite pathSegs_closed. cbn [hd] in RH. change (map seg3 (segsOf ((v :: w :: r) ++ [v]))) with (traceOf ((v :: w :: r) ++ [v])). apply traceOf_last. congruence.
Qed.

Section Stitching.
Context {SL : StdLib} {SLaws : StdLaws SL}.
Context (X : vec -> Prop) (slices : list openSlice).
Hypothesis (Hap : forall q q', X q -> X q' -> q <> q' -> wellApart q q') (Hg : forall s, In s slices -> goodPiece X s) (Hlen : (Z.of_nat (length slices) <= 2 ^ 24)%Z).
Local Notation sls := (map slPline slices).

Lemma piece_at i : (i < length slices)%nat -> exists s, In s slices /\ sliceAt sls i = slPline s.
Proof.
  intros Hi. destruct (nth_error slices i) as [s|] eqn:E; [|apply nth_error_None in E; lia]. exists s. split; [eapply nth_error_In; eauto|].
  unfold sliceAt. erewrite nth_error_nth; [reflexivity|]. now rewrite nth_error_map, E.
Qed.

Lemma last_app_ne {A} (l l' : list A) d : l' <> [] -> last (l ++ l') d = last l' d.
Proof. intros H. rewrite (app_removelast_last d H) at 1. rewrite app_assoc, last_last. reflexivity. Qed.

Lemma chain_ok ch : ch <> [] -> (forall i, In i ch -> (i < length slices)%nat) ->
  (forall l1 a b l2, ch = l1 ++ a :: b :: l2 -> joins sls sliceJoinThreshold a b) ->
  traceOf (chainVs slices ch) = flat_map (fun i => trace (sliceAt sls i)) ch /\ (2 <= length (chainVs slices ch))%nat /\
  (exists i, In i ch /\ hd vdflt (chainVs slices ch) = hd vdflt (vertexes (sliceAt sls i))) /\ (exists i, In i ch /\ last (chainVs slices ch) vdflt = last (vertexes (sliceAt sls i)) vdflt) /\
  (pos (hd vdflt (chainVs slices ch)) = pos (last (chainVs slices ch) vdflt) -> (3 <= length (chainVs slices ch))%nat).
Proof.
  intros Hne Hin Hj. destruct ch as [|i0 ch0]; [contradiction|]. clear Hne.
  assert (HS : forall i, (i < length slices)%nat -> isClosed (sliceAt sls i) = false /\ (2 <= length (vertexes (sliceAt sls i)))%nat /\
    (pos (hd vdflt (vertexes (sliceAt sls i))) = pos (last (vertexes (sliceAt sls i)) vdflt) -> (3 <= length (vertexes (sliceAt sls i)))%nat) /\
    X (startOf sls i) /\ X (endOf sls i)).
  { intros i Hi. destruct (piece_at i Hi) as (s & Hs & E). unfold startOf, endOf. rewrite E. destruct (Hg s Hs) as (A & B & C & D & F & _). auto. }
  revert i0 Hin Hj. induction ch0 as [|j ch0 IH]; intros i Hin Hj.
  - cbn [chainVs flat_map]. destruct (HS i (Hin i (or_introl eq_refl))) as (C1 & C2 & C3 & _). rewrite app_nil_r. split; [|split; [auto|split; [|split; [|auto]]]].
    + destruct (sliceAt sls i) as [c l]. cbn [isClosed vertexes] in *. subst c. now rewrite trace_open.
    + exists i. split; [now left|reflexivity].
    + exists i. split; [now left|reflexivity].
  - destruct (IH j) as (T & L & (a & Ha & Ea) & (b & Hb & Eb) & L3).
    { intros x Hx. apply Hin. now right. }
    { intros l1 a b l2 El. apply (Hj (i :: l1) a b l2). cbn. now rewrite El. }
    destruct (HS i (Hin i (or_introl eq_refl))) as (C1 & C2 & C3 & C4 & C5). destruct (HS j (Hin j (or_intror (or_introl eq_refl)))) as (D1 & D2 & D3 & D4 & D5).
    change (chainVs slices (i :: j :: ch0)) with (removelast (vertexes (sliceAt sls i)) ++ chainVs slices (j :: ch0)).
    assert (Hhd : hd vdflt (chainVs slices (j :: ch0)) = hd vdflt (vertexes (sliceAt sls j))).
    { destruct ch0 as [|j' ch0]; [reflexivity|]. change (chainVs slices (j :: j' :: ch0)) with (removelast (vertexes (sliceAt sls j)) ++ chainVs slices (j' :: ch0)).
      destruct (vertexes (sliceAt sls j)) as [|x [|y l]]; [cbn in D2; lia|cbn in D2; lia|]. reflexivity. }
    assert (Hm : pos (last (vertexes (sliceAt sls i)) vdflt) = pos (hd vdflt (chainVs slices (j :: ch0)))).
    { rewrite Hhd. destruct (Hj [] i j ch0 eq_refl) as [J1 J2]. rewrite sjt_R in J1, J2. apply (apart_eq X); auto; unfold endOf, startOf in J1, J2; lra. }
    set (cv := chainVs slices (j :: ch0)) in *. set (si := vertexes (sliceAt sls i)) in *.
    assert (Hcv : cv <> []) by (intros E; rewrite E in L; cbn in L; lia).
    split; [|split; [|split; [|split]]].
    + cbn [flat_map]. cbn [flat_map] in T. rewrite <- T. destruct cv as [|x cv']; [contradiction|]. rewrite traceOf_app. f_equal.
      cbn [hd] in Hm. rewrite <- (traceOf_last _ _ _ Hm). rewrite <- app_removelast_last by (intros E; rewrite E in C2; cbn in C2; lia).
      destruct (sliceAt sls i) as [c l]. cbn [isClosed vertexes] in *. subst c. now rewrite trace_open.
    + rewrite app_length. lia.
    + exists i. split; [now left|]. fold si. destruct si as [|x [|y l]]; [cbn in C2; lia|cbn in C2; lia|]. reflexivity.
    + exists b. split; [now right|]. rewrite last_app_ne by auto. exact Eb.
    + intros _. rewrite app_length, removelast_len. fold cv. lia.
Qed.

Lemma flat_map_perm {A B} (f : A -> list B) l l' : Permutation l l' -> Permutation (flat_map f l) (flat_map f l').
Proof. apply Permutation_flat_map. Qed.

Lemma flat_map_concat' {A B} (f : A -> list B) ll : flat_map f (concat ll) = flat_map (flat_map f) ll.
Proof. induction ll as [|l ll IH]; [reflexivity|]. cbn [concat flat_map]. rewrite flat_map_app. now rewrite IH. Qed.

Lemma all_close closed mi chains : chained slices mi sliceJoinThreshold (seq 0 (length slices)) [] chains -> Permutation (concat chains) (seq 0 (length slices)) ->
  List.Forall (fun ch => ch <> [] /\ forall l1 a b l2, ch = l1 ++ a :: b :: l2 -> joins sls sliceJoinThreshold a b) chains ->
  closed = true -> (forall x, netT (flat_map (fun s => trace (slPline s)) slices) x = 0) -> List.Forall closedPline (flat_map (chainPline slices closed) chains).
Proof.
  intros Chd P F -> Hnet.
  assert (Hin : forall ch, In ch chains -> forall i, In i ch -> (i < length slices)%nat).
  { intros ch Hch i Hi. assert (Hc : In i (concat chains)) by (apply in_concat; eauto). apply (Permutation_in _ P) in Hc. apply in_seq in Hc. lia. }
  assert (HX : forall i, (i < length slices)%nat -> X (startOf sls i) /\ X (endOf sls i)).
  { intros i Hi. destruct (piece_at i Hi) as (s & Hs & E). unfold startOf, endOf. rewrite E. destruct (Hg s Hs) as (_ & _ & _ & D & E' & _). auto. }
  assert (Cls : List.Forall (fun ch => endOf sls (last ch 0%nat) = startOf sls (hd 0%nat ch)) chains).
  { apply (chained_closes slices mi sliceJoinThreshold) with (l := seq 0 (length slices)) (used := []); auto.
    - intros i j Hi Hj. unfold joins. rewrite sjt_R. split.
      + intros [J1 J2]. destruct (HX i Hi), (HX j Hj). apply (apart_eq X); auto; lra.
      + intros ->. rewrite !Rminus_eq_0, Rabs_R0. lra.
    - intros x. rewrite <- (map_length slPline slices), net_of.
      + rewrite <- (Hnet x). f_equal. rewrite flat_map_concat_map, map_map, <- flat_map_concat_map. rewrite !flat_map_concat_map. f_equal. apply map_ext_in. intros s Hs. destruct (Hg s Hs) as (C1 & _). destruct (slPline s) as [c l]. cbn [isClosed vertexes] in *. subst c. now rewrite trace_open.
      + intros s Hs E. apply in_map_iff in Hs. destruct Hs as (o & <- & Ho). destruct (Hg o Ho) as (_ & C2 & _). rewrite E in C2. cbn in C2. lia.
    - intros i Hi. apply in_seq in Hi. lia.
    - constructor.
    - intros i []. }
  rewrite List.Forall_forall in F, Cls |- *. intros r Hr. apply in_flat_map in Hr. destruct Hr as (ch & Hch & Hr). specialize (Cls ch Hch).
  destruct (F ch Hch) as [Hne Hj]. destruct (chain_ok ch Hne (Hin ch Hch) Hj) as (T & L & _ & _ & L3).
  assert (Epos : pos (hd vdflt (chainVs slices ch)) = pos (last (chainVs slices ch) vdflt)).
  { assert (G : forall ch, ch <> [] -> (forall i, In i ch -> (i < length slices)%nat) -> pos (hd vdflt (chainVs slices ch)) = startOf sls (hd 0%nat ch) /\ pos (last (chainVs slices ch) vdflt) = endOf sls (last ch 0%nat)).
    { assert (L2 : forall i, (i < length slices)%nat -> (2 <= length (vertexes (sliceAt sls i)))%nat) by (intros i Hi; destruct (piece_at i Hi) as (s & Hs & ->); apply (Hg s Hs)).
      clear - L2. induction ch as [|i ch IH]; intros Hne Hin; [congruence|]. destruct ch as [|j ch]; [split; reflexivity|]. destruct IH as [_ IH2]; [discriminate|intros; apply Hin; now right|].
      change (chainVs slices (i :: j :: ch)) with (removelast (vertexes (sliceAt sls i)) ++ chainVs slices (j :: ch)). pose proof (L2 i (Hin i (or_introl eq_refl))) as Li. split.
      - unfold startOf. change (hd 0%nat (i :: j :: ch)) with i. destruct (vertexes (sliceAt sls i)) as [|x [|y l]]; [cbn in Li; lia|cbn in Li; lia|]. reflexivity.
      - rewrite last_app_ne; [exact IH2|]. intros E. assert (Lj := L2 j (Hin j (or_intror (or_introl eq_refl)))). cbn [chainVs] in E. destruct ch as [|k ch]; [rewrite E in Lj; cbn in Lj; lia|].
        apply app_eq_nil in E. destruct E as [E _]. pose proof (removelast_len (vertexes (sliceAt sls j))) as Q. rewrite E in Q. cbn in Q. lia. }
    destruct (G ch Hne (Hin ch Hch)) as [-> ->]. symmetry. exact Cls. }
  unfold chainPline in Hr. destruct (Nat.leb_spec (length (chainVs slices ch)) 1); [lia|]. cbn [andb] in Hr.
  assert (Ef : fuzzyEqual (pos (hd vdflt (chainVs slices ch))) (pos (last (chainVs slices ch) vdflt)) (1 / 100000) = true).
  { apply fuzzyEqual_R. rewrite <- Epos, !Rminus_eq_0, Rabs_R0. lra. }
  rewrite Ef in Hr. destruct Hr as [<-|[]]. split; [reflexivity|]. cbn [vertexes]. rewrite removelast_len. specialize (L3 Epos). lia.
Qed.

(** stitching keeps every segment of every slice and adds none; if as many slices start as end at every point, all results are closed *)
Lemma stitch_traces closed mi : exists rs, stitchOffsetSlicesTogether slices closed mi sliceJoinThreshold = Ok rs /\
  Permutation (flat_map trace rs) (flat_map (fun s => trace (slPline s)) slices) /\ (closed = false -> forall r, In r rs -> isClosed r = false) /\
  (closed = true -> (forall x, netT (flat_map (fun s => trace (slPline s)) slices) x = 0) -> List.Forall closedPline rs).
Proof.
  destruct slices as [|s [|s2 rest]] eqn:Es.
  - exists []. split; [reflexivity|]. split; [constructor|]. split; [intros _ r []|]. intros _ _. constructor.
  - destruct (Hg s (or_introl eq_refl)) as (C1 & C2 & C3 & C4 & C5 & C6). destruct (vertexes (slPline s)) as [|v vs] eqn:Ev; [cbn in C2; lia|].
    rewrite (C38_single s v vs closed mi sliceJoinThreshold Ev C1). eexists. split; [reflexivity|]. split.
    2: { split; [intros -> r [<-|[]]; cbn [andb]; exact C1|]. intros -> Hnet. cbn [andb flat_map] in *. specialize (Hnet (pos v)). rewrite app_nil_r in Hnet.
      destruct (slPline s) as [c l]. cbn [isClosed vertexes] in *. subst c l. rewrite trace_open, netT_trace in Hnet by discriminate. cbn [hd] in Hnet, C3.
      assert (E : pos v = pos (last (v :: vs) vdflt)). { unfold ind in Hnet. destruct (veq_dec (pos v) (pos (last (v :: vs) vdflt))) as [E|N]; [exact E|]. destruct (veq_dec (pos v) (pos v)); [lra|congruence]. }
      assert (El : last (v :: vs) v = last (v :: vs) vdflt) by (apply last_default; discriminate). rewrite El, <- E.
      assert (Ef : fuzzyEqual (pos v) (pos v) sliceJoinThreshold = true). { rewrite sjt_R. apply fuzzyEqual_R. rewrite !Rminus_eq_0, Rabs_R0. lra. }
      rewrite Ef. constructor; [|constructor]. split; [reflexivity|]. cbn [vertexes]. rewrite removelast_len. specialize (C3 E). lia. }
    cbn [flat_map]. rewrite !app_nil_r. destruct closed; cbn [andb]; [|reflexivity].
    destruct (fuzzyEqual (pos v) (pos (last (v :: vs) v)) sliceJoinThreshold) eqn:Ef; [|reflexivity].
    rewrite sjt_R, fuzzyEqual_R in Ef. assert (El : last (v :: vs) v = last (v :: vs) vdflt) by (apply last_default; discriminate). rewrite El in Ef.
    assert (E : pos v = pos (last (v :: vs) vdflt)) by (apply (apart_eq X); auto; lra). rewrite closed_trace; [|apply C3; exact E|exact E].
    destruct (slPline s) as [c l]. cbn [isClosed vertexes] in *. subst c l. rewrite trace_open. reflexivity.
  - assert (Hn : (2 <= length slices)%nat) by (rewrite Es; cbn [length]; lia). rewrite <- Es in *. clear Es.
    destruct (C38_chains slices closed mi sliceJoinThreshold sjt_pos Hlen) as (chains & Chd & E & P & F & Cl); auto.
    { intros x Hx. destruct (Hg x Hx) as (_ & L & _). lia. }
    { intros x Hx. apply (Hg x Hx). }
    exists (flat_map (chainPline slices closed) chains). split; [exact E|]. split.
    2: { split; [intros -> r Hr; destruct (Cl r Hr) as (_ & Cr & _); destruct (isClosed r); [|reflexivity]; specialize (Cr eq_refl); discriminate|]. intros Hc Hn0. now apply (all_close closed mi). }
    clear Cl Chd.
    assert (Hin : forall ch, In ch chains -> forall i, In i ch -> (i < length slices)%nat).
    { intros ch Hch i Hi. assert (Hc : In i (concat chains)) by (apply in_concat; eauto). apply (Permutation_in _ P) in Hc. apply in_seq in Hc. lia. }
    rewrite List.Forall_forall in F.
    assert (G : flat_map trace (flat_map (chainPline slices closed) chains) = flat_map (flat_map (fun i => trace (sliceAt sls i))) chains).
    { clear P E. induction chains as [|ch chains IH]; [reflexivity|]. cbn [flat_map]. rewrite flat_map_app. f_equal.
      2: { apply IH; intros; [apply F; now right|apply (Hin ch0); [now right|auto]]. }
      destruct (F ch (or_introl eq_refl)) as [Hne Hj]. destruct (chain_ok ch Hne (Hin ch (or_introl eq_refl)) Hj) as (T & L & (a & Ha & Ea) & (b & Hb & Eb) & L3).
      unfold chainPline. destruct (Nat.leb_spec (length (chainVs slices ch)) 1); [lia|]. rewrite <- T. destruct closed; cbn [andb]; [|cbn [flat_map]; rewrite app_nil_r; apply trace_open].
      destruct (fuzzyEqual (pos (hd vdflt (chainVs slices ch))) (pos (last (chainVs slices ch) vdflt)) (1 / 100000)) eqn:Ef; cbn [flat_map]; rewrite app_nil_r; [|apply trace_open].
      apply fuzzyEqual_R in Ef. assert (Epos : pos (hd vdflt (chainVs slices ch)) = pos (last (chainVs slices ch) vdflt)).
      { apply (apart_eq X); auto; try lra.
        - rewrite Ea. destruct (piece_at a (Hin ch (or_introl eq_refl) a Ha)) as (x & Hx & ->). apply (Hg x Hx).
        - rewrite Eb. destruct (piece_at b (Hin ch (or_introl eq_refl) b Hb)) as (x & Hx & ->). apply (Hg x Hx). }
      apply closed_trace; auto. }
    rewrite G, <- flat_map_concat'. rewrite (flat_map_perm _ _ _ P).
    assert (Hmap : flat_map (fun i => trace (sliceAt sls i)) (seq 0 (length slices)) = flat_map (fun s => trace (slPline s)) slices); [|rewrite Hmap; reflexivity].
    rewrite !flat_map_concat_map. f_equal. apply nth_error_ext. intros i. rewrite !nth_error_map. destruct (Nat.ltb_spec i (length slices)) as [Hi|Hi].
    + destruct (nth_error slices i) as [x|] eqn:Ex; [|apply nth_error_None in Ex; lia].
      assert (nth_error (seq 0 (length slices)) i = Some i) as ->.
      { rewrite (nth_error_nth' _ 0%nat) by (now rewrite seq_length). f_equal. rewrite seq_nth by auto. reflexivity. }
      cbn [option_map]. do 2 f_equal. unfold sliceAt. erewrite nth_error_nth; [reflexivity|]. now rewrite nth_error_map, Ex.
    + rewrite !(proj2 (nth_error_None _ _)) by (rewrite ?seq_length; lia). reflexivity.
Qed.
End Stitching.

(** ** The stretches between the crossing points *)
(** [l] is a stretch of the polyline from one point of [X] to the next *)
Definition part (pl : polyline) (X : vec -> Prop) (l : list vertex) : Prop :=
  exists k a d b, (k < length (vertexes pl))%nat /\ (d <= length (vertexes pl))%nat /\ run pl k a d b l /\ clearOf pl X k a d b /\ X (seg pl k a) /\ X (seg pl (k + d) b).

(** 1 if the segment [e] runs through or up to [q], 0 otherwise *)
Definition reaches (q : vec) (e : vec * R * vec) : Prop := exists z, 0 < z <= 1 /\ segPath (fst (un3 e)) (snd (un3 e)) z = q.
Definition pass (q : vec) (e : vec * R * vec) : R := if pdec (reaches q e) then 1 else 0.

Lemma pdec_iff (P Q : Prop) : (P <-> Q) -> (if pdec P then 1 else 0) = (if pdec Q then 1 else 0).
Proof. intros E. destruct (pdec P), (pdec Q); tauto. Qed.

(** the parts together run through the polyline once: they go around every point as often as the polyline does, at every point as many of them start as end,
    and they pass every point as often as the polyline does *)
Definition runsOnce (pl : polyline) (parts : list (list vertex)) : Prop :=
  (forall q, ~ onPath pl q -> turnT q (flat_map traceOf parts) = 2 * PI * IZR (getWindingNumber pl q)) /\ (forall x, netT (flat_map traceOf parts) x = 0) /\
  forall q, sumR (map (pass q) (flat_map traceOf parts)) = sumR (map (pass q) (trace pl)).

(** the polyline, cut at the points of [X] *)
Definition cutInto (pl : polyline) (X : vec -> Prop) (parts : list (list vertex)) : Prop :=
  (forall l, In l parts -> part pl X l) /\ (forall q, onPath pl q -> exists l, In l parts /\ onPath (mkPline false l) q) /\ runsOnce pl parts.

(** [rs] consists of the segments of those [parts] that are kept: all of them pass the tests at their vertices and at the middle of their last segment, and
    none against which nothing speaks is missing; and if at every point as many kept parts start as end, all of [rs] are closed *)
Definition keptOf (ts : tests) (shortCheck : bool) (parts : list (list vertex)) (rs : list polyline) : Prop :=
  exists kept dropped, Permutation (kept ++ dropped) parts /\ (forall l, In l kept -> validated ts l) /\ (forall l, In l dropped -> ~ passes ts shortCheck l) /\
    Permutation (flat_map trace rs) (flat_map traceOf kept) /\ ((forall x, netT (flat_map traceOf kept) x = 0) -> List.Forall closedPline rs).

Section Parts.
Context {SL : StdLib} {SLaws : StdLaws SL}.
Context (raw : polyline) (X : vec -> Prop) (ps : list (nat * vec)) (ts : tests) (m : vlookup).
Let n := length (vertexes raw).
Let cs := withAt ps.
Hypothesis (Craw : closedPline raw) (Hsm : smallBulges raw) (Hsp : spaced raw X) (Hap : forall q q', X q -> X q' -> q <> q' -> wellApart q q') (Hts : okTests ts).
Hypothesis Hsnd : forall k p, In (k, p) ps -> (k < n)%nat /\ onSeg (vert raw k 0) (vert raw k 1) p /\ X p.
Hypothesis Hcpl : forall k q, (k < n)%nat -> onSeg (vert raw k 0) (vert raw k 1) q -> X q -> In (k, q) ps.
Hypothesis Hne : ps <> [].

Lemma cs_sound k c : In (k, c) cs -> (k < n)%nat /\ spStart c = false /\ onSeg (vert raw k 0) (vert raw k 1) (spPos c) /\ X (spPos c).
Proof. intros H. apply withAt_In in H. destruct H as (p & -> & H). destruct (Hsnd k p H) as (A & B & C). auto. Qed.

Lemma cs_complete k q : (k < n)%nat -> onSeg (vert raw k 0) (vert raw k 1) q -> X q -> In (k, mkSP q false) cs.
Proof. intros Hk O Hx. apply withAt_In. exists q. split; [reflexivity|]. now apply Hcpl. Qed.

Lemma raw2 : (2 <= n)%nat.
Proof. apply Craw. Qed.

(** two cuts of a segment at the same distance from its start are the same point *)
Lemma ps_inj k p q : In (k, p) ps -> In (k, q) ps -> dist (pos (at_ raw k)) p = dist (pos (at_ raw k)) q -> p = q.
Proof.
  intros Hp Hq E. destruct (Hsnd k p Hp) as (Hk & Op & _). destruct (Hsnd k q Hq) as (_ & Oq & _). destruct (seg_at raw k (proj1 Craw) (proj2 Craw) Hk) as (E0 & E1 & Pk).
  assert (Hb : Rabs (bulge (vert raw k 0)) <= 1) by (apply (vert_small raw raw2 Hsm)). assert (Hf : pos (vert raw k 0) <> pos (vert raw k 1)) by (apply far_ne, (proj1 Hsp _ _ Pk)).
  apply onSeg_path in Op, Oq. destruct Op as (s & Hs & ->), Oq as (t & Ht & ->). rewrite <- E0 in E.
  assert (s = t); [|now subst]. apply Rle_antisym; apply (start_dist_le (vert raw k 0) (vert raw k 1)); auto; lra.
Qed.

Lemma stretch_part k l : (k < n)%nat -> In l (stretches raw cs k) -> part raw X l.
Proof.
  intros Hk Hl. destruct (stretch_runX raw X cs raw2 Hsm (side_sep raw X cs Craw Hsp cs_sound) (side_cut raw X cs Craw Hsp cs_sound) (side_pair raw X cs Craw Hsp Hap cs_sound) cs_complete k l Hk Hl)
    as (a & d & b & R & Hd & I1 & I2 & C).
  exists k, a, d, b. split; [auto|]. split; [exact Hd|]. split; [auto|]. split; [auto|]. split; [apply (cs_sound _ _ I1)|apply (cs_sound _ _ I2)].
Qed.

Definition allParts : list (list vertex) := flat_map (stretches raw cs) (seq 0 n).

Lemma parts_cover (mu : vec * R * vec -> R) (M : nat -> R -> R -> R) :
  (forall k a b c, (k < n)%nat -> 0 <= a -> a <= b -> b <= c -> c <= 1 -> M k a c = M k a b + M k b c) ->
  (forall k a b u w, (k < n)%nat -> 0 <= a -> a < b -> b <= 1 -> piece (vert raw k 0) (vert raw k 1) a b u w -> Rabs (bulge u) <= 1 -> mu (seg3 (u, w)) = M k a b) ->
  sumR (map mu (flat_map traceOf allParts)) = sumR (map (fun k => M k 0 1) (seq 0 n)).
Proof.
  intros Ma Mp. rewrite sum_flat_map. unfold n.
  rewrite <- (cover raw cs raw2 Hsm (side_sep raw X cs Craw Hsp cs_sound) (side_cut raw X cs Craw Hsp cs_sound) (side_pair raw X cs Craw Hsp Hap cs_sound) mu M Ma Mp); [reflexivity|].
  destruct ps as [|[k p] ps'] eqn:E; [contradiction|]. exists k, (atP p). apply withAt_In. exists p. split; [auto|]. now left.
Qed.

Lemma parts_once : runsOnce raw allParts.
Proof.
  split; [|split].
  - intros p Ho. assert (Hoff : forall k, (k < n)%nat -> ~ onSeg (vert raw k 0) (vert raw k 1) p).
    { intros k Hk O. apply Ho. destruct (seg_at raw k (proj1 Craw) (proj2 Craw) Hk) as (_ & _ & Hin). exists (vert raw k 0), (vert raw k 1). auto. }
    rewrite <- (turnSum_winding raw p (proj1 Craw) Hsm Ho). unfold turnT.
    rewrite (parts_cover (turn1 p) (fun k a b => RInt (angSpeed p (segPath (vert raw k 0) (vert raw k 1))) a b)).
    + unfold turnSum. fold (sumR (map (fun e => RInt (angSpeed p (segPath (fst e) (snd e))) 0 1) (pathSegs raw))). rewrite <- (sumR_perm _ _ (Permutation_map _ (segs_perm raw Craw))), map_map. reflexivity.
    + intros k a b c Hk Ha Hab Hbc Hc. pose proof (vert_small raw (proj2 Craw) Hsm k 0) as Bk. symmetry. apply (RInt_Chasles (V := R_CompleteNormedModule)); apply seg_int_part; auto; lra.
    + intros k a b u w Hk Ha Hab Hb P Bu. rewrite turn1_seg3. apply piece_turn; auto. apply (vert_small raw (proj2 Craw) Hsm).
  - intros x. unfold netT. rewrite (parts_cover (fun e => ind x (fst (fst e)) - ind x (snd e)) (fun k a b => ind x (seg raw k a) - ind x (seg raw k b))).
    + rewrite (sum_ext _ (fun k => ind x (pos (vert raw k 0)) + - ind x (pos (vert raw (S k) 0)))).
      2:{ intros k _. unfold seg. rewrite segPath_0, segPath_1. replace (vert raw k 1) with (vert raw (S k) 0); [lra|]. unfold vert. do 2 f_equal. lia. }
      rewrite sum_add. assert (E : sumR (map (fun k => - ind x (pos (vert raw (S k) 0))) (seq 0 n)) = - sumR (map (fun k => ind x (pos (vert raw k 0))) (seq 1 n))).
      { rewrite <- sumR_map_opp, map_map, <- seq_shift, map_map. reflexivity. }
      rewrite E, (sum_period n ltac:(pose proof raw2; lia) (fun k => ind x (pos (vert raw k 0))) 1); [lra|]. intros i. do 2 f_equal. unfold vert. fold n. f_equal. replace (i + n + 0)%nat with (i + 0 + 1 * n)%nat by lia. apply Nat.mod_add. pose proof raw2. lia.
    + intros k a b c _ _ _ _ _. lra.
    + intros k a b u w _ _ _ _ P _. unfold seg3, seg. cbn [fst snd]. now rewrite (piece_start _ _ _ _ _ _ P), (piece_end _ _ _ _ _ _ P).
  - intros q. rewrite (parts_cover (pass q) (fun k a b => if pdec (exists t, a < t <= b /\ seg raw k t = q) then 1 else 0)).
    + unfold trace. rewrite map_map, <- (sumR_perm _ _ (Permutation_map _ (segs_perm raw Craw))), map_map. apply sum_ext. intros k _. unfold pass, reaches, seg3, un3, seg. cbn [fst snd].
      apply pdec_iff. split; intros (t & Ht & E); exists t; (split; [exact Ht|]); rewrite <- E; unfold segPath; cbn [bulge pos]; reflexivity.
    + intros k a b c Hk Ha Hab Hbc Hc. destruct (seg_at raw k (proj1 Craw) (proj2 Craw) Hk) as (_ & _ & Pk).
      assert (Inj : forall s t, 0 <= s <= 1 -> 0 <= t <= 1 -> seg raw k s = q -> seg raw k t = q -> s = t).
      { intros s t Hs Ht E1 E2. apply (segPath_inj (vert raw k 0) (vert raw k 1)); auto; [apply (vert_small raw raw2 Hsm)|apply far_ne, (proj1 Hsp _ _ Pk)|unfold seg in *; congruence]. }
      destruct (pdec _) as [(t1 & H1 & E1)|N1]; destruct (pdec _) as [(t2 & H2 & E2)|N2]; destruct (pdec _) as [(t3 & H3 & E3)|N3]; try lra.
      * exfalso. assert (t2 = t3) by (apply Inj; auto; lra). lra.
      * exfalso. destruct (Rle_dec t1 b); [apply N2; exists t1; split; [lra|auto]|apply N3; exists t1; split; [lra|auto]].
      * exfalso. apply N1. exists t2. split; [lra|auto].
      * exfalso. apply N1. exists t2. split; [lra|auto].
      * exfalso. apply N1. exists t3. split; [lra|auto].
    + intros k a b u w Hk Ha Hab Hb P Bu. unfold pass, reaches, seg3, un3. cbn [fst snd].
      assert (Pu : forall z, segPath (mkVtx (pos u) (bulge u)) (mkVtx (pos w) 0) z = seg raw k (a + z * (b - a))) by (intros z; unfold seg; rewrite <- (P z); unfold segPath; cbn [bulge pos]; reflexivity).
      apply pdec_iff. split.
      * intros (z & Hz & E). exists (a + z * (b - a)). rewrite <- Pu. split; [nra|auto].
      * intros (t & Ht & E'). exists ((t - a) / (b - a)). assert (Ez : (t - a) / (b - a) * (b - a) = t - a) by (field; lra). split.
        -- split; [apply Rdiv_lt_0_compat; lra|]. apply (Rmult_le_reg_r (b - a)); [lra|]. rewrite Ez. lra.
        -- rewrite Pu, Ez, <- E'. f_equal. lra.
Qed.

Lemma all_cut : cutInto raw X allParts.
Proof.
  split; [|split; [|exact parts_once]].
  - intros l Hl. apply in_flat_map in Hl. destruct Hl as (k & Hk & Hl). apply in_seq in Hk. apply (stretch_part k l); [lia|auto].
  - intros q Hq. destruct (stretches_cover raw cs raw2 (proj1 Craw) Hsm (side_sep raw X cs Craw Hsp cs_sound) (side_cut raw X cs Craw Hsp cs_sound) (side_pair raw X cs Craw Hsp Hap cs_sound) q) as (k & l & Hk & Hl & O); auto.
    + destruct ps as [|[k p] ps'] eqn:E; [contradiction|]. exists k, (atP p). apply withAt_In. exists p. split; [auto|]. now left.
    + exists l. split; [|auto]. apply in_flat_map. exists k. split; [apply in_seq; fold n in Hk; lia|auto].
Qed.

Hypothesis (Hm : tableOf raw cs m).

Lemma fold_runs sc : forall ord acc, (forall e, In e ord -> In e m) -> exists kept dropped,
  mfold (offsetSliceOne ts raw true sc m) ord acc = Ok (acc ++ map (fun kl => openOf (fst kl) (snd kl)) kept) /\
  Permutation (kept ++ dropped) (flat_map (fun e => map (pair (fst e)) (stretches raw cs (fst e))) ord) /\
  (forall kl, In kl kept -> validated ts (snd kl)) /\ (forall kl, In kl dropped -> ~ passes ts sc (snd kl)).
Proof.
  induction ord as [|[k l] ord IH]; intros acc Hin.
  - exists [], []. cbn [mfold flat_map map app]. rewrite app_nil_r. split; [reflexivity|]. split; [constructor|]. split; intros ? [].
  - cbn [mfold]. assert (Hk : forall k p, In (k, p) cs -> (k < n)%nat) by (intros x p H; apply (cs_sound _ _ H)).
    pose proof (side_sep raw X cs Craw Hsp cs_sound) as Hsep.
    destruct (one_runs ts Hts raw m cs Hm Hk ltac:(pose proof raw2; fold n; lia) (fun x c H => proj1 (proj2 (cs_sound x c H))) (proj1 Hsep) (fun x c H => proj2 (proj2 Hsep x c x H (Hk x c H))) sc true k l acc (Hin _ (or_introl eq_refl))) as (new & drop & E & P & V & D).
    { intros c Hc. apply (proj2 Hsep k c); [exact Hc|]. apply Nat.mod_upper_bound. pose proof raw2. fold n. lia. }
    { reflexivity. }
    rewrite E. cbn [bind]. destruct (IH (acc ++ map (openOf k) new)) as (kept & dropped & E' & P' & V' & D'); [intros; apply Hin; now right|].
    exists (map (pair k) new ++ kept), (map (pair k) drop ++ dropped). split; [|split; [|split]].
    + rewrite E'. rewrite map_app, map_map. cbn [fst snd]. now rewrite <- app_assoc.
    + cbn [flat_map fst]. rewrite <- P', <- P, map_app, <- !app_assoc. apply Permutation_app_head. apply Permutation_app_swap_app.
    + intros kl H. apply in_app_or in H. destruct H as [H|H]; [|auto]. apply in_map_iff in H. destruct H as (x & <- & Hx). now apply V.
    + intros kl H. apply in_app_or in H. destruct H as [H|H]; [|auto]. apply in_map_iff in H. destruct H as (x & <- & Hx). now apply D.
Qed.

(** over the whole table: all stretches *)
Lemma keys_all ord : Permutation ord m -> Permutation (flat_map (fun e => map (pair (fst e)) (stretches raw cs (fst e))) ord) (flat_map (fun k => map (pair k) (stretches raw cs k)) (seq 0 n)).
Proof.
  intros P. rewrite (flat_map_perm _ _ _ P). clear P ord. destruct Hm as [Nm Sm].
  assert (E1 : flat_map (fun e : nat * list vec => map (pair (fst e)) (stretches raw cs (fst e))) m = flat_map (fun k => map (pair k) (stretches raw cs k)) (map fst m)).
  { rewrite !flat_map_concat_map, map_map. reflexivity. }
  rewrite E1. set (ne := fun k => match sortedCuts raw cs k with [] => false | _ :: _ => true end).
  assert (E2 : forall l, flat_map (fun k => map (pair k) (stretches raw cs k)) (filter ne l) = flat_map (fun k => map (pair k) (stretches raw cs k)) l).
  { induction l as [|k l IH]; [reflexivity|]. cbn [filter flat_map]. unfold ne at 1. destruct (sortedCuts raw cs k) eqn:Es; cbn [flat_map]; rewrite IH; [|reflexivity]. unfold stretches at 2. now rewrite Es. }
  rewrite <- (E2 (seq 0 n)). apply flat_map_perm. apply NoDup_Permutation; [auto|apply NoDup_filter, seq_NoDup|].
  intros k. rewrite filter_In, in_seq. unfold ne. split.
  - intros H. apply in_map_iff in H. destruct H as ([k' l] & E & H). cbn [fst] in E. subst k'. apply Sm in H. destruct H as [El Hl].
    destruct (sortedCuts raw cs k) as [|c t] eqn:Es; [apply map_eq_nil in El; contradiction|]. split; [|reflexivity]. assert (Hc : In (k, c) cs) by (apply (sortedCuts_In raw); rewrite Es; now left). destruct (cs_sound _ _ Hc). fold n. lia.
  - intros [_ H]. destruct (sortedCuts raw cs k) as [|c t] eqn:Es; [discriminate|]. apply in_map_iff. exists (k, map spPos (c :: t)). split; [reflexivity|]. apply Sm. split; [|discriminate].
    rewrite Es, map_map. rewrite <- (map_id (c :: t)) at 2. apply map_ext_in. intros x Hx. assert (Hc : In (k, x) cs) by (apply (sortedCuts_In raw); now rewrite Es). apply withAt_In in Hc. destruct Hc as (p & -> & _). reflexivity.
Qed.

Lemma part_good l k : part raw X l -> goodPiece X (openOf k l).
Proof.
  intros (j & a & d & b & Hj & Hd & R & C & X1 & X2). destruct (run_ends _ _ _ _ _ _ R) as (E1 & E2 & L2 & L3). unfold goodPiece, openOf. cbn [slPline vertexes isClosed intrStartIndex]. rewrite E1, E2.
  split; [reflexivity|]. split; [auto|]. split; [|split; [auto|split; [auto|discriminate]]].
  intros E. destruct d as [|d]; [|apply L3; lia]. exfalso. rewrite Nat.add_0_r in E. destruct R as (Ha & Hb & u & w & _ & Hab & _). unfold seg in E.
  destruct (seg_at raw j (proj1 Craw) (proj2 Craw) Hj) as (_ & _ & Pj). apply segPath_inj in E; [lra|apply (vert_small raw raw2 Hsm)|apply far_ne, (proj1 Hsp _ _ Pj)|auto|auto].
Qed.

(** the slices, stitched *)
Lemma parts_result sc mi sls : mfold (offsetSliceOne ts raw true sc m) (map_order m) [] = Ok sls \/ mfold (offsetSliceOne ts raw true sc m) m [] = Ok sls -> (Z.of_nat (length sls) <= 2 ^ 24)%Z ->
  exists rs, stitchOffsetSlicesTogether sls true mi sliceJoinThreshold = Ok rs /\ keptOf ts sc allParts rs.
Proof.
  intros Hs Hlen.
  assert (exists ord, Permutation ord m /\ mfold (offsetSliceOne ts raw true sc m) ord [] = Ok sls) as (ord & Po & Es).
  { destruct Hs as [Hs|Hs]; [exists (map_order m); split; [apply order_perm|auto]|exists m; split; [reflexivity|auto]]. }
  destruct (fold_runs sc ord []) as (kept & dropped & E & P & V & D). { intros e He. apply (Permutation_in _ Po He). }
  rewrite Es in E. injection E as ->. cbn [app] in *. rewrite (keys_all ord Po) in P.
  assert (P' : Permutation (map snd kept ++ map snd dropped) allParts).
  { rewrite <- map_app. rewrite (Permutation_map snd P). unfold allParts. clear. generalize (seq 0 n). induction l as [|k l IH]; [reflexivity|]. cbn [flat_map]. rewrite map_app, map_map. cbn [snd]. rewrite map_id. now apply Permutation_app_head. }
  assert (Hpart : forall kl, In kl kept -> part raw X (snd kl)).
  { intros kl H. apply (proj1 all_cut). apply (Permutation_in _ P'). apply in_or_app. left. now apply in_map. }
  destruct (stitch_traces X (map (fun kl => openOf (fst kl) (snd kl)) kept) Hap) with (closed := true) (mi := mi) as (rs & Ers & T & _ & TC); auto.
  { intros s H. apply in_map_iff in H. destruct H as (kl & <- & H). apply part_good. now apply Hpart. }
  exists rs. split; [exact Ers|]. exists (map snd kept), (map snd dropped). split; [exact P'|]. split; [|split].
  - intros l H. apply in_map_iff in H. destruct H as (kl & <- & H). auto.
  - intros l H. apply in_map_iff in H. destruct H as (kl & <- & H). auto.
  - assert (Eq : flat_map (fun s => trace (slPline s)) (map (fun kl => openOf (fst kl) (snd kl)) kept) = flat_map traceOf (map snd kept)).
    { rewrite !flat_map_concat_map, !map_map. cbn [openOf slPline]. erewrite map_ext; [reflexivity|]. intros kl. apply trace_open. }
    rewrite Eq in T, TC. split; [exact T|now apply TC].
Qed.
End Parts.
