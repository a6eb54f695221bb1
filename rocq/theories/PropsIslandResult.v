(** * C66: the results of ParallelOffsetIslands::compute bound the region permitted by all input loops *)
From Coq Require Import ZArith Reals Lra Lia List Bool Arith Permutation Sorted.
From Coquelicot Require Import Coquelicot.
From Verif Require Import Base Num MathUtils PlineSegment SpatialIndex IndexTree IndexQuery PropsIndex Polyline Intersects Combine Offset Islands StdLaws RGeom Spec PropsMath ArcGeom Polar PropsSegment PropsClosest PropsIntr PropsPlineIntr PropsPolyline PropsArea Turning PropsWinding PropsRegion PropsPlineIndex PropsExtents PropsCoincident PropsSlices PropsStitch PropsCombine PropsPieces PropsTrace PropsBoolOps PropsEuler PropsOffset PropsOffsetSlices PropsParallelTotal PropsOffsetRuns PropsOffsetCuts PropsCover PropsRunPoints PropsBalance PropsJordan PropsOffsetParts PropsOffsetResult PropsOffsetConst PropsOffsetExact PropsOffsetSide PropsIslands PropsIslandSlices PropsRegionOps PropsManyBalance PropsIslandCuts PropsIslandBoxes PropsIslandExact PropsIslandRegion.
Import ListNotations.
Open Scope R_scope.

(** ** There are at most as many stretches as there are cuts *)
Definition cnt (Q : vec -> Prop) (M : list vec) : R := sumR (map (fun q => if pdec (Q q) then 1 else 0) M).
Lemma cnt_nonneg (Q : vec -> Prop) M : 0 <= cnt Q M.
Proof. unfold cnt. induction M as [|q M IH]; [cbn; lra|]. cbn [map]. rewrite sumR_cons. destruct (pdec _); lra. Qed.
Lemma cnt_le (Q : vec -> Prop) M : cnt Q M <= INR (length M).
Proof. unfold cnt. induction M as [|q M IH]; [cbn; lra|]. cbn [map length]. rewrite sumR_cons, S_INR. destruct (pdec _); lra. Qed.
Lemma cnt_ge (Q : vec -> Prop) M q : In q M -> Q q -> 1 <= cnt Q M.
Proof.
  intros H Hq. induction M as [|x M IH]; [destruct H|]. unfold cnt in *. cbn [map]. rewrite sumR_cons. destruct H as [->|H].
  - destruct (pdec (Q q)); [|contradiction]. pose proof (cnt_nonneg Q M) as C. unfold cnt in C. lra.
  - specialize (IH H). destruct (pdec (Q x)); lra.
Qed.
Lemma cnt_ext (Q Q' : vec -> Prop) M : (forall q, Q q <-> Q' q) -> cnt Q M = cnt Q' M.
Proof. intros H. unfold cnt. apply sum_ext. intros q _. specialize (H q). destruct (pdec (Q q)), (pdec (Q' q)); tauto. Qed.
Lemma cnt_add (Q Q' : vec -> Prop) M : (forall q, Q q -> Q' q -> False) -> cnt (fun q => Q q \/ Q' q) M = cnt Q M + cnt Q' M.
Proof.
  intros H. unfold cnt. rewrite <- sum_add. apply sum_ext. intros q _. specialize (H q). destruct (pdec (Q q \/ Q' q)), (pdec (Q q)), (pdec (Q' q)); tauto || lra.
Qed.

Section Count.
Context {SL : StdLib} {SLaws : StdLaws SL}.
Context (pl : polyline) (X : vec -> Prop) (cs : list (nat * slicePoint)) (pred : vec -> bool) (M : list vec).
Hypothesis (Cpl : closedPline pl) (Spl : smallBulges pl) (Hsp : spaced pl X) (Hap : forall q q', X q -> X q' -> q <> q' -> wellApart q q').
Hypothesis Hsound : forall k c, In (k, c) cs -> (k < length (vertexes pl))%nat /\ spStart c = false /\ onSeg (vert pl k 0) (vert pl k 1) (spPos c) /\ X (spPos c).
Hypothesis Hcompl : forall k q, (k < length (vertexes pl))%nat -> onSeg (vert pl k 0) (vert pl k 1) q -> X q -> In (k, mkSP q false) cs.
Hypothesis (Hne : exists k c, In (k, c) cs) (HM : forall q, X q -> In q M).

Let mu (e : vec * R * vec) : R := cnt (fun q => on3 e q /\ q <> snd e) M.
Let on (k : nat) (a b : R) (q : vec) : Prop := exists t, a <= t < b /\ q = seg pl k t.

Lemma seg_inj k s t : 0 <= s <= 1 -> 0 <= t <= 1 -> seg pl k s = seg pl k t -> s = t.
Proof. apply segPath_inj; [apply (vert_small pl (proj2 Cpl) Spl)|]. apply far_ne, (vert_far pl cs (proj2 Cpl) (side_sep pl X cs Cpl Hsp Hsound)). Qed.

Lemma piece_count k a b u w : 0 <= a -> a < b -> b <= 1 -> piece (vert pl k 0) (vert pl k 1) a b u w -> mu (seg3 (u, w)) = cnt (on k a b) M.
Proof.
  intros Ha Hab Hb P. unfold mu. apply cnt_ext. intros q. change (snd (seg3 (u, w))) with (pos w). rewrite (piece_end _ _ _ _ _ _ P), <- on3_seg. fold (seg pl k b). split.
  - intros [O N]. apply onSeg_path in O. destruct O as (s & Hs & ->). rewrite (P s). fold (seg pl k (a + s * (b - a))). exists (a + s * (b - a)). split; [|reflexivity].
    assert (s <> 1). { intros ->. apply N. rewrite (P 1). unfold seg. f_equal. ring. } split; [nra|]. assert (0 < (1 - s) * (b - a)) by (apply Rmult_lt_0_compat; lra). nra.
  - intros (t & Ht & ->). split.
    + apply onSeg_path. exists ((t - a) / (b - a)). split; [split; [apply Rdiv_le_0_compat; lra|apply Rmult_le_reg_r with (b - a); [lra|]; unfold Rdiv; rewrite Rmult_assoc, Rinv_l; lra]|].
      rewrite (P ((t - a) / (b - a))). unfold seg. f_equal. field. lra.
    + intros E. apply seg_inj in E; lra.
Qed.

Lemma stretch_count l : part pl X l -> 1 <= sumR (map mu (traceOf l)).
Proof.
  intros (k & a & d & b & Hk & _ & (Ha & Hb & Rn) & _ & Xa & _).
  assert (NN : forall t, 0 <= sumR (map mu t)). { induction t as [|e t IH]; [cbn; lra|]. cbn [map]. rewrite sumR_cons. pose proof (cnt_nonneg (fun q => on3 e q /\ q <> snd e) M) as C. fold (mu e) in C. lra. }
  assert (G : exists u w t c, traceOf l = seg3 (u, w) :: t /\ a < c <= 1 /\ piece (vert pl k 0) (vert pl k 1) a c u w).
  { destruct d as [|d'].
    - destruct Rn as (u & w & -> & Hab & P & _). exists u, w, [], b. split; [reflexivity|]. split; [lra|auto].
    - destruct Rn as (w & us & e & -> & Ha1 & Hb0 & P & _ & _ & _ & Eu). destruct d' as [|d2].
      + exists w, us, [seg3 (us, e)], 1. split; [reflexivity|]. split; [lra|]. intros s. rewrite <- (P s). unfold segPath. now rewrite Eu.
      + exists w, (vert pl k 1). eexists. exists 1. split; [reflexivity|]. split; [lra|auto]. }
  destruct G as (u & w & t & c & -> & Hc & P). cbn [map]. rewrite sumR_cons, (piece_count k a c u w) by (auto; lra). pose proof (NN t).
  assert (1 <= cnt (on k a c) M); [|lra]. apply (cnt_ge _ _ (seg pl k a)); [now apply HM|]. exists a. split; [lra|reflexivity].
Qed.

Lemma split_count : (length (keptP pl cs pred) <= length M * length (vertexes pl))%nat.
Proof.
  apply INR_le. pose proof (split_cover pl X cs pred Cpl Spl Hsp Hap Hsound Hne mu (fun k a b => cnt (on k a b) M)) as C.
  assert (C' : sumR (map mu (flat_map traceOf (keptP pl cs pred))) + sumR (map mu (flat_map traceOf (dropP pl cs pred))) = sumR (map (fun k => cnt (on k 0 1) M) (seq 0 (length (vertexes pl))))).
  { apply C.
    - intros k a b c Hk Ha Hab Hbc Hc. rewrite <- cnt_add.
      + apply cnt_ext. intros q. split; [intros (t & Ht & ->)|intros [(t & Ht & ->)|(t & Ht & ->)]]; [destruct (Rlt_le_dec t b); [left|right]|..]; exists t; (split; [lra|reflexivity]).
      + intros q (t & Ht & ->) (t' & Ht' & E). apply seg_inj in E; lra.
    - intros k a b u w Hk Ha Hab Hb P _. now apply piece_count. }
  assert (L1 : forall S, (forall l, In l S -> part pl X l) -> INR (length S) <= sumR (map mu (flat_map traceOf S))).
  { induction S as [|l S IH]; intros HS; [cbn; lra|]. cbn [flat_map]. rewrite map_app, sumR_app. change (length (l :: S)) with (Datatypes.S (length S)). rewrite S_INR. pose proof (stretch_count l (HS l (or_introl eq_refl))). assert (INR (length S) <= sumR (map mu (flat_map traceOf S))) by (apply IH; intros; apply HS; now right). lra. }
  pose proof (L1 (keptP pl cs pred) ltac:(intros l Hl; apply (split_part pl X cs pred); auto)) as K1. pose proof (L1 (dropP pl cs pred) ltac:(intros l Hl; apply (split_part pl X cs pred); auto)) as K2.
  assert (T : sumR (map (fun k => cnt (on k 0 1) M) (seq 0 (length (vertexes pl)))) <= INR (length M) * INR (length (vertexes pl))).
  { assert (T0 : forall t, sumR (map (fun k => cnt (on k 0 1) M) t) <= INR (length M) * INR (length t)).
    { induction t as [|k t IH]; [cbn [map length]; rewrite sumR_nil; change (INR 0) with 0; lra|]. cbn [map length]. rewrite sumR_cons, S_INR. pose proof (cnt_le (on k 0 1) M). lra. }
    specialize (T0 (seq 0 (length (vertexes pl)))). now rewrite seq_length in T0. }
  rewrite mult_INR. pose proof (pos_INR (length (dropP pl cs pred))). lra.
Qed.
End Count.

(** ** Lists *)
Lemma numbered_flat {A Y} (l : list A) (F : nat * A -> list Y) (G : nat -> list Y) : (forall i x, nth_error l i = Some x -> F (i, x) = G i) -> flat_map F (numbered l) = flat_map G (seq 0 (length l)).
Proof.
  unfold numbered. intros H. assert (K : forall (t : list A) s, (forall i x, nth_error t i = Some x -> F ((s + i)%nat, x) = G (s + i)%nat) -> flat_map F (combine (seq s (length t)) t) = flat_map G (seq s (length t))).
  { induction t as [|x t IH]; intros s Hs; [reflexivity|]. cbn [length seq combine flat_map]. f_equal; [specialize (Hs 0%nat x eq_refl); now rewrite Nat.add_0_r in Hs|]. apply IH. intros i y Hy. specialize (Hs (S i) y Hy). now rewrite Nat.add_succ_r in Hs. }
  apply (K l 0%nat). exact H.
Qed.

Lemma numbered_nth {A} (l : list A) i x : In (i, x) (numbered l) -> nth_error l i = Some x.
Proof.
  unfold numbered. assert (K : forall (t : list A) s, In (i, x) (combine (seq s (length t)) t) -> (s <= i)%nat /\ nth_error t (i - s) = Some x).
  { induction t as [|y t IH]; intros s H; [destruct H|]. cbn [length seq combine] in H. destruct H as [E|H].
    - injection E as -> ->. split; [lia|]. now rewrite Nat.sub_diag.
    - apply IH in H. destruct H as [H1 H2]. split; [lia|]. replace (i - s)%nat with (S (i - S s)) by lia. exact H2. }
  intros H. apply (K l 0%nat) in H. now rewrite Nat.sub_0_r in H.
Qed.

Lemma flat_two {A Y} (f g : A -> list Y) l : Permutation (flat_map f l ++ flat_map g l) (flat_map (fun x => f x ++ g x) l).
Proof.
  induction l as [|x l IH]; [constructor|]. cbn [flat_map]. rewrite <- !app_assoc. apply Permutation_app_head. rewrite <- IH. rewrite !app_assoc. apply Permutation_app_tail, Permutation_app_comm.
Qed.

Lemma filter_two {A} (f : A -> bool) l : Permutation (filter f l ++ filter (fun x => negb (f x)) l) l.
Proof.
  induction l as [|x l IH]; [constructor|]. cbn [filter]. destruct (f x); cbn [negb app]; [now constructor|]. rewrite <- Permutation_middle. now constructor.
Qed.

(** next to every end of a stretch there are points inside it *)
Lemma part_near pl X l q eps : closedPline pl -> part pl X l -> onPath (mkPline false l) q -> X q -> 0 < eps -> exists z, dist q z < eps /\ onPath (mkPline false l) z /\ ~ X z.
Proof.
  intros [_ H2] (k & a & e & b & Hk & He & Rn & C & _) O Xq Heps. pose proof O as O'. apply (run_onRun pl k a e b l q H2 Rn) in O'.
  assert (On : forall y, onRun pl k a e b y -> onPath (mkPline false l) y) by (intros y Oy; now apply (run_onRun pl k a e b l y H2 Rn)). destruct Rn as (Ha & Hb & Rn). destruct e as [|e'].
  - destruct Rn as (_ & _ & _ & Hab & _). cbn [onRun clearOf] in *. destruct O' as (t & Ht & ->). destruct (seg_close pl k t eps Heps) as (r & Hr & Cl).
    assert (Hs : exists s, a < s < b /\ Rabs (s - t) < r).
    { destruct (Rle_lt_dec t a) as [L|L].
      - exists (a + Rmin (r / 2) ((b - a) / 2)). pose proof (Rmin_l (r / 2) ((b - a) / 2)). pose proof (Rmin_r (r / 2) ((b - a) / 2)). assert (0 < Rmin (r / 2) ((b - a) / 2)) by (apply Rmin_glb_lt; lra). split; [lra|]. rewrite Rabs_right; lra.
      - exists (t - Rmin (r / 2) ((t - a) / 2)). pose proof (Rmin_l (r / 2) ((t - a) / 2)). pose proof (Rmin_r (r / 2) ((t - a) / 2)). assert (0 < Rmin (r / 2) ((t - a) / 2)) by (apply Rmin_glb_lt; lra). split; [lra|]. rewrite Rabs_left; lra. }
    destruct Hs as (s & Hs & Hc). exists (seg pl k s). split; [now apply Cl|]. split; [apply On; exists s; split; [lra|reflexivity]|]. apply C. lra.
  - destruct Rn as (_ & _ & _ & _ & Ha1 & Hb0 & _). cbn [onRun clearOf] in *. destruct C as (C1 & C2 & C3). destruct O' as [(t & Ht & ->)|[(e & t & Hee & Ht & ->)|(t & Ht & ->)]].
    + destruct (Req_dec t a) as [->|]; [|exfalso; apply (C1 t); [lra|exact Xq]]. destruct (seg_close pl k a eps Heps) as (r & Hr & Cl).
      pose proof (Rmin_l (r / 2) ((1 - a) / 2)). pose proof (Rmin_r (r / 2) ((1 - a) / 2)). assert (0 < Rmin (r / 2) ((1 - a) / 2)) by (apply Rmin_glb_lt; lra).
      exists (seg pl k (a + Rmin (r / 2) ((1 - a) / 2))). split; [apply Cl; rewrite Rabs_right; lra|]. split; [apply On; left; eexists; split; [|reflexivity]; lra|]. apply C1. lra.
    + exfalso. apply (C2 e t); auto.
    + destruct (Req_dec t b) as [->|]; [|exfalso; apply (C3 t); [lra|exact Xq]]. destruct (seg_close pl (k + S e') b eps Heps) as (r & Hr & Cl).
      pose proof (Rmin_l (r / 2) (b / 2)). pose proof (Rmin_r (r / 2) (b / 2)). assert (0 < Rmin (r / 2) (b / 2)) by (apply Rmin_glb_lt; lra).
      exists (seg pl (k + S e') (b - Rmin (r / 2) (b / 2))). split; [apply Cl; rewrite Rabs_left; lra|]. split; [apply On; right; right; eexists; split; [|reflexivity]; lra|]. apply C3. lra.
Qed.

Section Result.
Context {SL : StdLib} {SLaws : StdLaws SL}.
Context (input : loopSet) (D : R) (L : list offsetLoop).
Hypothesis (HP : loopsPosition L) (HI : forall l, In l L -> createApproxSpatialIndex (lpoly l) = Ok (lindex l)).
Hypothesis (HD : 1 / 10000 <= D) (HW : forall l, In l (ccwLoops input ++ cwLoops input) -> wellMade l).
Hypothesis (HE : offsetsExact input D L) (HA : arranged input D) (HZ : decisiveIslands input D L).
Context (keep : nat -> bool) (cuts : nat -> list (nat * slicePoint)) (passes : nat -> vec -> bool).
Hypothesis Hkeep : forall i l, nth_error L i = Some l -> (keep i = true <-> ~ touched L i /\ exists v vs, vertexes (lpoly l) = v :: vs /\ farFromOthers input D (parentLoopIndex l) (pos v)).
Hypothesis Hcuts : forall i l k c, nth_error L i = Some l -> (In (k, c) (cuts i) <-> spStart c = false /\ meets L i k (spPos c)).
Hypothesis Hpasses : forall i l q, nth_error L i = Some l -> (passes i q = true <-> farFromOthers input D (parentLoopIndex l) q).

Local Notation n := (length L).
Local Notation m := (length (inputs input)).
Local Notation pl := (plA L).
Local Notation kapA := (kap n m (plA L) (parA L) (backA input)).
Local Notation loneA := (lone n (plA L)).
Definition met (i : nat) : Prop := exists q, meeting L i q.
Local Notation KP i := (keptP (pl i) (cuts i) (passes i)).
Local Notation DP i := (dropP (pl i) (cuts i) (passes i)).
Definition Kt (i : nat) : list (vec * R * vec) := (if keep i then trace (pl i) else []) ++ flat_map traceOf (KP i).
Definition Nt (i : nat) : list (vec * R * vec) := (if keep i then [] else if pdec (met i) then [] else trace (pl i)) ++ flat_map traceOf (DP i).

Lemma cuts_sound i li : nth_error L i = Some li -> forall k c, In (k, c) (cuts i) -> (k < length (vertexes (lpoly li)))%nat /\ spStart c = false /\ onSeg (vert (lpoly li) k 0) (vert (lpoly li) k 1) (spPos c) /\ meeting L i (spPos c).
Proof. intros Hi k c H. apply (Hcuts i li k c Hi) in H. destruct H as [A B]. apply (meets_iff L HP HI i li k _ Hi) in B. tauto. Qed.
Lemma cuts_compl i li : nth_error L i = Some li -> forall k q, (k < length (vertexes (lpoly li)))%nat -> onSeg (vert (lpoly li) k 0) (vert (lpoly li) k 1) q -> meeting L i q -> In (k, mkSP q false) (cuts i).
Proof. intros Hi k q Hk O M. apply (Hcuts i li k _ Hi). split; [reflexivity|]. apply (meets_iff L HP HI i li k _ Hi). auto. Qed.
Lemma met_cuts i li : nth_error L i = Some li -> met i -> exists k c, In (k, c) (cuts i).
Proof.
  intros Hi (q & Hq). pose proof Hq as (j & li' & lj & Hi' & _ & _ & O & _). rewrite Hi in Hi'. injection Hi' as <-. destruct (loop_ok L HP HI i li Hi) as ([Hc H2] & _).
  destruct (in_onSeg_path (lpoly li) q Hc H2 O) as (k & Hk & Ok). exists k, (mkSP q false). now apply (cuts_compl i li).
Qed.
Lemma unmet_cuts i li : nth_error L i = Some li -> ~ met i -> KP i = [] /\ DP i = [].
Proof.
  intros Hi Hm. assert (E : cuts i = []). { destruct (cuts i) as [|[k c] t] eqn:E; [reflexivity|]. exfalso. apply Hm. exists (spPos c). apply (cuts_sound i li Hi k c). rewrite E. now left. }
  rewrite E. assert (S0 : forall k, stretches (pl i) [] k = []).
  { intros k. unfold stretches. destruct (sortedCuts (pl i) [] k) as [|p t] eqn:Es; [reflexivity|]. exfalso. assert (Hin : In p (sortedCuts (pl i) [] k)) by (rewrite Es; now left). unfold sortedCuts in Hin. apply (Permutation_in _ (sort_perm _ _ _)) in Hin. destruct Hin. }
  unfold keptP, dropP. split; (induction (seq 0 _) as [|k t IH]; [reflexivity|]; cbn [flat_map]; rewrite S0; exact IH).
Qed.
Lemma met_keep i li : nth_error L i = Some li -> met i -> keep i = false.
Proof. intros Hi Hm. destruct (keep i) eqn:E; [|reflexivity]. apply (Hkeep i li Hi) in E. destruct E as [E _]. exfalso. apply E. now apply (touched_iff L HP HI). Qed.

Lemma first_at (p : polyline) : closedPline p -> exists v vs, vertexes p = v :: vs /\ at_ p 0 = v.
Proof. intros [_ H2]. destruct p as [c [|v vs]]; [cbn in H2; lia|]. exists v, vs. auto. Qed.

Lemma keep_iff i li : nth_error L i = Some li -> ~ met i -> (keep i = true <-> farFromOthers input D (parentLoopIndex li) (pos (at_ (lpoly li) 0))).
Proof.
  intros Hi Hm. destruct (loop_ok L HP HI i li Hi) as (Ci & _). destruct (first_at _ Ci) as (v & vs & Ev & Ea). rewrite (Hkeep i li Hi), Ea. split.
  - intros (_ & v' & vs' & E & F). rewrite Ev in E. injection E as <- <-. exact F.
  - intros F. split; [intros T; apply Hm; now apply (touched_iff L HP HI)|]. eauto.
Qed.

Lemma in_stretch (S : list (list vertex)) e : In e (flat_map traceOf S) -> exists l, In l S /\ In e (traceOf l).
Proof. intros H. now apply in_flat_map in H. Qed.

Lemma stretch_on l e q : In e (traceOf l) -> on3 e q -> onPath (mkPline false l) q.
Proof. intros He O. apply onPath_trace. exists e. split; [now rewrite trace_open|auto]. Qed.

Lemma part_on (p : polyline) X l q : closedPline p -> smallBulges p -> part p X l -> onPath (mkPline false l) q -> onPath p q.
Proof. intros Cp Sp (k & a & e & b & Hk & _ & R & _) O. destruct Cp as [Hc H2]. apply (run_on p k a e b l q); auto. Qed.

(** the stretches of loop [i] *)
Lemma split_of i li l : nth_error L i = Some li -> In l (KP i) \/ In l (DP i) -> part (lpoly li) (meeting L i) l.
Proof.
  intros Hi H. destruct (loop_ok L HP HI i li Hi) as (Ci & Si & _). destruct (at_loop L i li Hi) as (E & _). rewrite E in H.
  apply (split_part (lpoly li) (meeting L i) (cuts i) (passes i)); auto; [apply (lp_spaced L HP i li Hi)|intros; apply (lp_apart L HP i i); auto|apply (cuts_sound i li Hi)|apply (cuts_compl i li Hi)].
Qed.

Lemma kept_far i li l : nth_error L i = Some li -> In l (KP i) -> farFromOthers input D (parentLoopIndex li) (lastMid l).
Proof.
  intros Hi H. apply (Hpasses i li _ Hi). destruct (loop_ok L HP HI i li Hi) as (Ci & Si & _). destruct (at_loop L i li Hi) as (E & _). rewrite E in H.
  apply (kept_pred (lpoly li) (meeting L i) (cuts i) (passes i)); auto; [apply (lp_spaced L HP i li Hi)|intros; apply (lp_apart L HP i i); auto|apply (cuts_sound i li Hi)|apply (cuts_compl i li Hi)].
Qed.
Lemma drop_near i li l : nth_error L i = Some li -> In l (DP i) -> ~ farFromOthers input D (parentLoopIndex li) (lastMid l).
Proof.
  intros Hi H F. apply (Hpasses i li _ Hi) in F. destruct (loop_ok L HP HI i li Hi) as (Ci & Si & _). destruct (at_loop L i li Hi) as (E & _). rewrite E in H.
  assert (F' : passes i (lastMid l) = false); [|congruence].
  apply (drop_pred (lpoly li) (meeting L i) (cuts i) (passes i)); auto; [apply (lp_spaced L HP i li Hi)|intros; apply (lp_apart L HP i i); auto|apply (cuts_sound i li Hi)|apply (cuts_compl i li Hi)].
Qed.

Lemma Kt_on i li e q : nth_error L i = Some li -> In e (Kt i) -> on3 e q -> onPath (lpoly li) q /\ (~ meeting L i q -> kapA i q = 1%Z).
Proof.
  intros Hi He O. destruct (loop_ok L HP HI i li Hi) as (Ci & Si & _). destruct (at_loop L i li Hi) as (E & _). unfold Kt in He. apply in_app_or in He. destruct He as [He|He].
  - destruct (keep i) eqn:Ek; [|destruct He]. rewrite E in He. assert (Oq : onPath (lpoly li) q) by (apply onPath_trace; eauto). split; [auto|]. intros _.
    assert (Nm : ~ met i) by (intros Hm; rewrite (met_keep i li Hi Hm) in Ek; discriminate).
    apply (uncut_kap input D L HP HI HD HW HE HA HZ i li q Hi); [intros z Hz; apply Nm; now exists z|auto|]. now apply (keep_iff i li Hi Nm).
  - destruct (in_stretch _ e He) as (l & Hl & Hel). pose proof (stretch_on l e q Hel O) as Ol. pose proof (split_of i li l Hi (or_introl Hl)) as Pl. split; [now apply (part_on _ (meeting L i) l)|].
    intros NM. apply (part_kap input D L HP HI HD HW HE HA HZ i li l q Hi Pl Ol NM). now apply (kept_far i li).
Qed.

Lemma Nt_on i li e q : nth_error L i = Some li -> In e (Nt i) -> on3 e q -> onPath (lpoly li) q /\ (~ meeting L i q -> kapA i q <> 1%Z).
Proof.
  intros Hi He O. destruct (loop_ok L HP HI i li Hi) as (Ci & Si & _). destruct (at_loop L i li Hi) as (E & _). unfold Nt in He. apply in_app_or in He. destruct He as [He|He].
  - destruct (keep i) eqn:Ek; [destruct He|]. destruct (pdec (met i)) as [Hm|Hm]; [destruct He|]. rewrite E in He. assert (Oq : onPath (lpoly li) q) by (apply onPath_trace; eauto). split; [auto|]. intros _ K1.
    apply (uncut_kap input D L HP HI HD HW HE HA HZ i li q Hi) in K1; [|intros z Hz; apply Hm; now exists z|auto]. apply (keep_iff i li Hi Hm) in K1. congruence.
  - destruct (in_stretch _ e He) as (l & Hl & Hel). pose proof (stretch_on l e q Hel O) as Ol. pose proof (split_of i li l Hi (or_intror Hl)) as Pl. split; [now apply (part_on _ (meeting L i) l)|].
    intros NM K1. apply (part_kap input D L HP HI HD HW HE HA HZ i li l q Hi Pl Ol NM) in K1. exact (drop_near i li l Hi Hl K1).
Qed.

Lemma KN_turn i li q : nth_error L i = Some li -> ~ onPath (lpoly li) q -> turnT q (Kt i) + turnT q (Nt i) = 2 * PI * IZR (getWindingNumber (lpoly li) q).
Proof.
  intros Hi O. destruct (loop_ok L HP HI i li Hi) as (Ci & Si & _). destruct (at_loop L i li Hi) as (E & _). unfold Kt, Nt. destruct (Classical_Prop.classic (met i)) as [Hm|Hm].
  - rewrite (met_keep i li Hi Hm). destruct (pdec (met i)); [|contradiction]. cbn [app]. rewrite E.
    apply (split_turn (lpoly li) (meeting L i) (cuts i) (passes i)); auto; [apply (lp_spaced L HP i li Hi)|intros; apply (lp_apart L HP i i); auto|apply (cuts_sound i li Hi)|apply (met_cuts i li Hi Hm)].
  - destruct (unmet_cuts i li Hi Hm) as [-> ->]. cbn [flat_map]. rewrite !app_nil_r, E. destruct (pdec (met i)); [contradiction|]. rewrite <- (closed_turn (lpoly li) q Ci Si O). destruct (keep i); unfold turnT; cbn [map sumR fold_right]; lra.
Qed.

Lemma KN_net i li x : nth_error L i = Some li -> netT (Kt i ++ Nt i) x = 0.
Proof.
  intros Hi. destruct (loop_ok L HP HI i li Hi) as (Ci & Si & _). destruct (at_loop L i li Hi) as (E & _). unfold Kt, Nt. destruct (Classical_Prop.classic (met i)) as [Hm|Hm].
  - rewrite (met_keep i li Hi Hm). destruct (pdec (met i)); [|contradiction]. cbn [app]. rewrite E.
    apply (split_net (lpoly li) (meeting L i) (cuts i) (passes i)); auto; [apply (lp_spaced L HP i li Hi)|intros; apply (lp_apart L HP i i); auto|apply (cuts_sound i li Hi)|apply (met_cuts i li Hi Hm)].
  - destruct (unmet_cuts i li Hi Hm) as [-> ->]. cbn [flat_map]. rewrite !app_nil_r, E. destruct (pdec (met i)); [contradiction|]. rewrite <- (closed_net (lpoly li) x Ci). destruct (keep i); [now rewrite app_nil_r|reflexivity].
Qed.

Lemma KN_ok i li : nth_error L i = Some li -> okT (Kt i ++ Nt i).
Proof.
  intros Hi e He. destruct (loop_ok L HP HI i li Hi) as (Ci & Si & _). destruct (at_loop L i li Hi) as (E & _).
  assert (St : forall l, In l (KP i) \/ In l (DP i) -> In e (traceOf l) -> ok3 e).
  { intros l Hl Hel. apply (part_shape (lpoly li) (meeting L i) (cuts i) Ci Si (lp_spaced L HP i li Hi) (cuts_sound i li Hi) l); [|exact Hel]. now apply (split_of i li). }
  assert (Wh : In e (trace (pl i)) -> ok3 e) by (rewrite E; apply (small_trace _ Ci Si)).
  unfold Kt, Nt in He. rewrite !in_app_iff in He. destruct He as [[He|He]|[He|He]].
  - destruct (keep i); [auto|destruct He].
  - destruct (in_stretch _ e He) as (l & Hl & Hel). eauto.
  - destruct (keep i); [destruct He|]. destruct (pdec _); [destruct He|auto].
  - destruct (in_stretch _ e He) as (l & Hl & Hel). eauto.
Qed.

Lemma parent_lt i : (i < n)%nat -> (parA L i < m)%nat.
Proof.
  intros H. destruct (loop_at L i H) as (li & Hi). destruct (at_loop L i li Hi) as (_ & -> & _). destruct (loop_ok L HP HI i li Hi) as (Ci & _). destruct (first_at _ Ci) as (v & vs & Ev & Ea).
  assert (O0 : onPath (lpoly li) (pos (at_ (lpoly li) 0))).
  { destruct Ci as [Hc H2]. replace (pos (at_ (lpoly li) 0)) with (seg (lpoly li) 0 0); [apply seg_onPath; auto; lra|]. unfold seg. rewrite segPath_0. unfold vert. rewrite Nat.add_0_r, Nat.mod_small by lia. reflexivity. }
  destruct (proj1 HE li _ (nth_error_In _ _ Hi) O0) as (P & HPk & _). exact (input_lt input _ P HPk).
Qed.

Lemma shared_meeting q : shared n pl q -> exists i, meeting L i q.
Proof.
  intros (i & j & Hi & Hj & Hne & Oi & Oj). destruct (loop_at L i Hi) as (li & Ei). destruct (loop_at L j Hj) as (lj & Ej). destruct (at_loop L i li Ei) as (E1 & _). destruct (at_loop L j lj Ej) as (E2 & _).
  rewrite E1 in Oi. rewrite E2 in Oj. exists i, j, li, lj. repeat split; auto.
Qed.

Lemma hyp_F0 k q : (k < m)%nat -> (forall i, (i < n)%nat -> parA L i = k -> ~ onPath (pl i) q) -> fac n pl (parA L) (backA input) k q = 0%Z \/ fac n pl (parA L) (backA input) k q = 1%Z.
Proof. intros Hk Ho. destruct (input_at input k Hk) as (P & HPk). apply (fac_permitted input D L HE k P q HPk Ho). Qed.
Lemma hyp_small i : (i < n)%nat -> smallBulges (pl i).
Proof. intros H. destruct (loop_at L i H) as (li & Hi). destruct (at_loop L i li Hi) as (-> & _). apply (loop_ok L HP HI i li Hi). Qed.
Lemma hyp_F1 i q : (i < n)%nat -> ~ onPath (pl i) q -> turnT q (Kt i) + turnT q (Nt i) = 2 * PI * IZR (getWindingNumber (pl i) q).
Proof. intros H. destruct (loop_at L i H) as (li & Hi). destruct (at_loop L i li Hi) as (-> & _). now apply KN_turn. Qed.
Lemma hyp_OK i : (i < n)%nat -> okT (Kt i ++ Nt i).
Proof. intros H. destruct (loop_at L i H) as (li & Hi). now apply (KN_ok i li). Qed.
Lemma hyp_F2 i e q : (i < n)%nat -> In e (Kt i ++ Nt i) -> on3 e q -> onPath (pl i) q.
Proof. intros H He O. destruct (loop_at L i H) as (li & Hi). destruct (at_loop L i li Hi) as (-> & _). apply in_app_or in He. destruct He as [He|He]; [now apply (Kt_on i li e q Hi He O)|now apply (Nt_on i li e q Hi He O)]. Qed.
Lemma hyp_F3 i e q : (i < n)%nat -> In e (Kt i) -> on3 e q -> loneA i q -> kapA i q = 1%Z.
Proof. intros H He O Hl. destruct (loop_at L i H) as (li & Hi). destruct (Kt_on i li e q Hi He O) as [Oq G]. apply G. now apply (lone_iff L i li q Hi Oq). Qed.
Lemma hyp_F3' i e q : (i < n)%nat -> In e (Nt i) -> on3 e q -> loneA i q -> kapA i q = 0%Z.
Proof.
  intros H He O Hl. destruct (loop_at L i H) as (li & Hi). destruct (Nt_on i li e q Hi He O) as [Oq G]. destruct (kap_permitted input D L HE i li q Hi Hl) as [[V|V] _]; [auto|]. exfalso. apply G; [|exact V]. now apply (lone_iff L i li q Hi Oq).
Qed.
Lemma hyp_F4 i x : (i < n)%nat -> netT (Kt i ++ Nt i) x = 0.
Proof. intros H. destruct (loop_at L i H) as (li & Hi). now apply (KN_net i li). Qed.

(** everything that is kept, of all loops together: each point is as often the start of a segment as it is the end of one *)
Lemma all_balance x : netT (allK n Kt) x = 0.
Proof.
  destruct (meetings_finite L HP HI) as (M & HM).
  apply (many_balance n m pl (parA L) (backA input) Kt Nt M parent_lt hyp_small hyp_F0 hyp_F1 hyp_OK hyp_F2 hyp_F3 hyp_F3' hyp_F4).
  intros q Hq. apply shared_meeting in Hq. destruct Hq as (i & Hq). exact (HM i q Hq).
Qed.

(** the kept and the dropped parts of a loop cover it *)
Lemma KN_cover i li q : nth_error L i = Some li -> onPath (lpoly li) q -> exists e, (In e (Kt i) \/ In e (Nt i)) /\ on3 e q.
Proof.
  intros Hi O. destruct (loop_ok L HP HI i li Hi) as (Ci & Si & _). destruct (at_loop L i li Hi) as (E & _). unfold Kt, Nt. destruct (Classical_Prop.classic (met i)) as [Hm|Hm].
  - destruct (split_all (lpoly li) (meeting L i) (cuts i) (passes i) Ci Si (lp_spaced L HP i li Hi) ltac:(intros; apply (lp_apart L HP i i); auto) (cuts_sound i li Hi) q (met_cuts i li Hi Hm) O) as (l & Hl & Ol).
    apply onPath_trace in Ol. destruct Ol as (e & He & Oe). rewrite trace_open in He. exists e. split; [|auto]. rewrite E. destruct Hl as [Hl|Hl]; [left|right]; apply in_or_app; right; apply in_flat_map; eauto.
  - apply onPath_trace in O. destruct O as (e & He & Oe). exists e. split; [|auto]. destruct (keep i); [left|right]; apply in_or_app; left; [now rewrite E|]. destruct (pdec (met i)); [contradiction|]. now rewrite E.
Qed.

Lemma allK_in i e : (i < n)%nat -> In e (Kt i) -> In e (allK n Kt).
Proof. intros Hi He. unfold allK. apply in_flat_map. exists i. split; [apply in_seq; lia|auto]. Qed.

(** a point of loop [i] that is on nothing kept is not permitted by the other input loops *)
Lemma off_kap i li q : nth_error L i = Some li -> (forall j, ~ meeting L j q) -> offT (allK n Kt) q -> onPath (lpoly li) q -> kapA i q <> 1%Z.
Proof.
  intros Hi NM Ho O. destruct (KN_cover i li q Hi O) as (e & [He|He] & Oe).
  - exfalso. apply (Ho e); [apply (allK_in i); [apply (at_loop L i li Hi)|auto]|auto].
  - apply (Nt_on i li e q Hi He Oe). apply NM.
Qed.

(** away from everything kept: how often it winds around a point *)
Lemma all_turn q : (forall i, ~ meeting L i q) -> offT (allK n Kt) q -> turnT q (allK n Kt) = 2 * PI * IZR (Psi n m pl (parA L) (backA input) q - prodZ (map (backA input) (seq 0 m))).
Proof.
  intros NM Ho. destruct (meetings_finite L HP HI) as (M & HM).
  apply (many_turn n m pl (parA L) (backA input) Kt Nt M parent_lt hyp_small hyp_F0 hyp_F1 hyp_OK hyp_F2 hyp_F3 hyp_F3' hyp_F4).
  - intros q' Hq. apply shared_meeting in Hq. destruct Hq as (i & Hq). exact (HM i q' Hq).
  - intros Hq. apply shared_meeting in Hq. destruct Hq as (i & Hq). exact (NM i Hq).
  - unfold at_trace, allK. assert (G : forall s, (forall i, In i s -> (i < n)%nat) -> flat_map (fun i => sel n m pl (parA L) (backA input) Kt Nt i q) s = flat_map Kt s).
    { induction s as [|i s IH]; intros Hs; [reflexivity|]. cbn [flat_map]. rewrite IH by (intros; apply Hs; now right). f_equal. destruct (loop_at L i (Hs i (or_introl eq_refl))) as (li & Hi). unfold sel. destruct (pdec (onPath (pl i) q)) as [O|]; [|reflexivity].
      destruct (at_loop L i li Hi) as (E & _). rewrite E in O. destruct (Z.eqb_spec (kapA i q) 1) as [K1|]; [|reflexivity]. destruct (off_kap i li q Hi NM Ho O K1). }
    apply G. intros i Hi. apply in_seq in Hi. lia.
Qed.

(** the product of the factors is the indicator of the permitted points *)
Lemma psi_permitted q : (forall i, ~ meeting L i q) -> offT (allK n Kt) q ->
  (permittedByAll input D q -> Psi n m pl (parA L) (backA input) q = 1%Z) /\ (~ permittedByAll input D q -> Psi n m pl (parA L) (backA input) q = 0%Z).
Proof.
  intros NM Ho. destruct (Classical_Prop.classic (exists i li, nth_error L i = Some li /\ onPath (lpoly li) q)) as [(i & li & Hi & O)|Off].
  - pose proof (off_kap i li q Hi NM Ho O) as K. assert (Hl : loneA i q) by (apply (lone_iff L i li q Hi O), NM). destruct (kap_permitted input D L HE i li q Hi Hl) as [V Iff]. assert (K0 : kapA i q = 0%Z) by tauto.
    split; [intros Hp; exfalso; apply K, Iff; intros k P HPk _; exact (Hp k P HPk)|]. intros _. rewrite (Psi_split n m pl (parA L) (backA input) parent_lt i q) by apply (at_loop L i li Hi). rewrite K0. lia.
  - assert (V : forall k P, inputLoop input k P -> (fac n pl (parA L) (backA input) k q = 0%Z \/ fac n pl (parA L) (backA input) k q = 1%Z) /\ (fac n pl (parA L) (backA input) k q = 1%Z <-> permitted P D q)).
    { intros k P HPk. apply (fac_permitted input D L HE k P q HPk). intros i Hi _ O. apply Off. destruct (loop_at L i Hi) as (li & Ei). exists i, li. destruct (at_loop L i li Ei) as (E & _). rewrite E in O. auto. }
    assert (V01 : forall x, In x (map (fun k => fac n pl (parA L) (backA input) k q) (seq 0 m)) -> x = 0%Z \/ x = 1%Z).
    { intros x Hx. apply in_map_iff in Hx. destruct Hx as (k & <- & Hk). apply in_seq in Hk. destruct (input_at input k ltac:(lia)) as (P & HPk). now apply (V k P). }
    assert (Iff : Psi n m pl (parA L) (backA input) q = 1%Z <-> permittedByAll input D q).
    { unfold Psi. rewrite (prodZ_1 _ V01). split.
      - intros H k P HPk. apply (V k P HPk). apply H. apply in_map_iff. exists k. split; [reflexivity|]. apply in_seq. pose proof (input_lt input k P HPk). lia.
      - intros H x Hx. apply in_map_iff in Hx. destruct Hx as (k & <- & Hk). apply in_seq in Hk. destruct (input_at input k ltac:(lia)) as (P & HPk). apply (V k P HPk). exact (H k P HPk). }
    split; [apply Iff|]. intros Hn. destruct (prodZ_01 _ V01) as [V0|V1]; [exact V0|]. exfalso. apply Hn, Iff, V1.
Qed.

(** all points kept are on the joint offset curve *)
Lemma kept_joint i li e q : nth_error L i = Some li -> In e (Kt i) -> on3 e q -> jointOffset input D q.
Proof.
  intros Hi He O. destruct (Kt_on i li e q Hi He O) as [Oq HK]. pose proof (nth_error_In _ _ Hi) as Hin. destruct (proj1 HE li q Hin Oq) as (P & HPk & AD & Sd). split; [|exists (parentLoopIndex li), P; auto].
  intros k Q HQ. destruct (Nat.eq_dec k (parentLoopIndex li)) as [->|Hne].
  { unfold inputLoop in *. rewrite HPk in HQ. injection HQ as <-. split; [apply AD|auto]. }
  destruct (Classical_Prop.classic (meeting L i q)) as [Hm|NM].
  - assert (Hc : clearBy (lpoly Q) D q); [|split; [auto|now apply (loop_side input D L HD HW HE HA li k Q q)]].
    unfold Kt in He. rewrite (met_keep i li Hi (ex_intro _ q Hm)) in He. cbn [app] in He. destruct (in_stretch _ e He) as (l & Hl & Hel). pose proof (stretch_on l e q Hel O) as Ol. pose proof (split_of i li l Hi (or_introl Hl)) as Pl.
    destruct (loop_ok L HP HI i li Hi) as (Ci & Si & _). apply clear_closed. intros eps Heps. destruct (part_near (lpoly li) _ l q eps Ci Pl Ol Hm Heps) as (z & Hz & Oz & NZ). exists z. split; [auto|].
    assert (K1 : kapA i z = 1%Z) by (apply (part_kap input D L HP HI HD HW HE HA HZ i li l z Hi Pl Oz NZ); now apply (kept_far i li)).
    pose proof (part_on _ _ l z Ci Si Pl Oz) as Oz'. assert (Hl' : loneA i z) by now apply (lone_iff L i li z Hi Oz'). destruct (kap_permitted input D L HE i li z Hi Hl') as [_ Iff]. exact (proj1 (proj1 Iff K1 k Q HQ Hne)).
  - assert (Hl' : loneA i q) by now apply (lone_iff L i li q Hi Oq). destruct (kap_permitted input D L HE i li q Hi Hl') as [_ Iff]. exact (proj1 Iff (HK NM) k Q HQ Hne).
Qed.

(** a permitted point at distance exactly D of an input loop is on an offset loop of it *)
Lemma joint_on k P q : inputLoop input k P -> permitted P D q -> atDistance (lpoly P) D q -> exists l, In l L /\ parentLoopIndex l = k /\ onPath (lpoly l) q.
Proof.
  intros HPk Hp (Hc & y & Oy & Ey). apply Classical_Prop.NNPP. intros No.
  assert (Off : forall i, (i < n)%nat -> parA L i = k -> ~ onPath (pl i) q).
  { intros i Hi Ei O. destruct (loop_at L i Hi) as (li & E). destruct (at_loop L i li E) as (E1 & E2 & _). rewrite E1 in O. apply No. exists li. split; [now apply nth_error_In in E|]. split; [congruence|auto]. }
  destruct (others_near n pl hyp_small (fun i => parA L i = k) q Off) as (e & He & Near).
  set (u := Rmin (1 / 2) (e / (2 * D))). assert (Hu : 0 < u) by (apply Rmin_glb_lt; [lra|apply Rdiv_lt_0_compat; lra]). assert (Hu1 : u <= 1 / 2) by apply Rmin_l.
  destruct (PropsJordan.dist_lerp q y u ltac:(lra)) as [D1 D2]. rewrite Ey in D1, D2.
  assert (Hd : dist q (lerp q y u) < e).
  { rewrite D1. assert (u <= e / (2 * D)) by apply Rmin_r. apply Rle_lt_trans with (e / (2 * D) * D); [apply Rmult_le_compat_r; lra|]. replace (e / (2 * D) * D) with (e / 2) by (field; lra). lra. }
  assert (F1 : fac n pl (parA L) (backA input) k q = 1%Z) by (apply (fac_permitted input D L HE k P q HPk Off); auto).
  assert (Off' : forall i, (i < n)%nat -> parA L i = k -> ~ onPath (pl i) (lerp q y u)) by (intros i Hi Ei; apply (Near (lerp q y u) i Hd Hi Ei)).
  assert (F2 : fac n pl (parA L) (backA input) k (lerp q y u) = 1%Z). { rewrite <- F1. apply fac_same. intros i Hi Ei. apply (Near (lerp q y u) i Hd Hi Ei). }
  apply (fac_permitted input D L HE k P _ HPk Off') in F2. destruct F2 as [F2 _]. specialize (F2 y Oy). rewrite dist_sym', D2 in F2. assert (0 < u * D) by (apply Rmult_lt_0_compat; lra). lra.
Qed.

(** the joint offset curve is kept, apart from meeting points *)
Lemma joint_kept q : jointOffset input D q -> (forall i, ~ meeting L i q) -> exists e, In e (allK n Kt) /\ on3 e q.
Proof.
  intros (Hall & k & P & HPk & AD) NM. destruct (joint_on k P q HPk (Hall k P HPk) AD) as (l & Hl & Ek & O). apply In_nth_error in Hl. destruct Hl as (i & Hi).
  destruct (KN_cover i l q Hi O) as (e & [He|He] & Oe); [exists e; split; [apply (allK_in i); [apply (at_loop L i l Hi)|auto]|auto]|]. exfalso.
  apply (proj2 (Nt_on i l e q Hi He Oe) (NM i)). assert (Hl' : loneA i q) by (apply (lone_iff L i l q Hi O), NM). destruct (kap_permitted input D L HE i l q Hi Hl') as [_ Iff]. apply Iff. intros k' Q HQ _. exact (Hall k' Q HQ).
Qed.

(** ** Stitching *)
Context (slices st : list polyline) (M : list vec).
Hypothesis HPerm : Permutation slices (flat_map (fun il => keptStretches (lpoly (snd il)) (cuts (fst il)) (passes (fst il))) (numbered L)).
Hypothesis Est : stitchOrderedSlices slices stitchFirstAvailable sliceJoinThreshold = Ok st.
Hypothesis (HM : forall i q, meeting L i q -> In q M) (Hfew : (Z.of_nat (length M * list_sum (map (fun l => length (vertexes (lpoly l))) L)) <= 2 ^ 24)%Z).

Lemma slice_of s : In s slices -> exists i li l, nth_error L i = Some li /\ s = mkPline false l /\ In l (KP i).
Proof.
  intros H. apply (Permutation_in _ HPerm) in H. apply in_flat_map in H. destruct H as ([i li] & Hil & H). apply numbered_nth in Hil. cbn [fst snd] in H. unfold keptStretches in H. apply in_map_iff in H. destruct H as (l & <- & Hl).
  exists i, li, l. split; [auto|]. split; [reflexivity|]. destruct (at_loop L i li Hil) as (-> & _). exact Hl.
Qed.

Lemma slices_len : (Z.of_nat (length slices) <= 2 ^ 24)%Z.
Proof.
  eapply Z.le_trans; [|exact Hfew]. apply inj_le. rewrite (Permutation_length HPerm).
  rewrite (numbered_flat L _ (fun i => map (mkPline false) (KP i))).
  2:{ intros i li Hi. cbn [fst snd]. destruct (at_loop L i li Hi) as (-> & _). reflexivity. }
  assert (B : forall i li, nth_error L i = Some li -> (length (KP i) <= length M * length (vertexes (lpoly li)))%nat).
  { intros i li Hi. destruct (Classical_Prop.classic (met i)) as [Hm|Hm]; [|destruct (unmet_cuts i li Hi Hm) as [-> _]; cbn; lia]. destruct (loop_ok L HP HI i li Hi) as (Ci & Si & _). destruct (at_loop L i li Hi) as (-> & _).
    apply (split_count (lpoly li) (meeting L i) (cuts i) (passes i) M Ci Si (lp_spaced L HP i li Hi) ltac:(intros; apply (lp_apart L HP i i); auto) (cuts_sound i li Hi) (cuts_compl i li Hi) (met_cuts i li Hi Hm) (HM i)). }
  assert (G : forall (t : list offsetLoop) s, (forall i x, nth_error t i = Some x -> (length (KP (s + i)) <= length M * length (vertexes (lpoly x)))%nat) ->
     (length (flat_map (fun i => map (mkPline false) (KP i)) (seq s (length t))) <= length M * list_sum (map (fun l => length (vertexes (lpoly l))) t))%nat).
  { induction t as [|x t IH]; intros s Hs; [cbn; lia|]. cbn [length seq flat_map map]. rewrite app_length, map_length. change (list_sum (?a :: ?b)) with (a + list_sum b)%nat. specialize (IH (S s)). pose proof (Hs 0%nat x eq_refl) as H0. rewrite Nat.add_0_r in H0.
    assert (IH' : (length (flat_map (fun i => map (mkPline false) (KP i)) (seq (S s) (length t))) <= length M * list_sum (map (fun l => length (vertexes (lpoly l))) t))%nat); [|lia].
    apply IH. intros i y Hy. replace (S s + i)%nat with (s + S i)%nat by lia. now apply Hs. }
  apply G. exact B.
Qed.

Lemma traces_perm : Permutation (flat_map trace (map lpoly (selected keep L)) ++ flat_map (fun s => traceOf (vertexes s)) slices) (allK n Kt).
Proof.
  unfold allK. rewrite <- (numbered_flat L (fun il => (if keep (fst il) then trace (lpoly (snd il)) else []) ++ flat_map traceOf (keptP (lpoly (snd il)) (cuts (fst il)) (passes (fst il))))).
  2:{ intros i li Hi. cbn [fst snd]. unfold Kt. destruct (at_loop L i li Hi) as (-> & _). reflexivity. }
  rewrite <- flat_two. apply Permutation_app.
  - unfold selected. rewrite map_map, flat_map_map. clear. induction (numbered L) as [|[i li] t IH]; [constructor|]. cbn [filter flat_map fst snd]. destruct (keep i); cbn [flat_map]; [exact (Permutation_app_head (trace (lpoly li)) IH)|exact IH].
  - rewrite (Permutation_flat_map (fun s => traceOf (vertexes s)) HPerm). clear. induction (numbered L) as [|[i li] t IH]; [constructor|]. cbn [flat_map fst snd]. rewrite flat_map_app. apply Permutation_app; [|exact IH].
    unfold keptStretches. rewrite flat_map_map. cbn [vertexes]. apply Permutation_refl.
Qed.

Lemma selected_in l : In l (selected keep L) -> In l L.
Proof. intros H. unfold selected in H. apply in_map_iff in H. destruct H as ([i x] & <- & H). apply filter_In in H. destruct H as [H _]. apply numbered_nth in H. now apply nth_error_In in H. Qed.

Lemma stitched_all : List.Forall closedPline (map lpoly (selected keep L) ++ st) /\ Permutation (flat_map trace (map lpoly (selected keep L) ++ st)) (allK n Kt).
Proof.
  assert (SelC : List.Forall closedPline (map lpoly (selected keep L))). { apply List.Forall_forall. intros p Hp. apply in_map_iff in Hp. destruct Hp as (l & <- & Hl). apply (lp_loops L HP l). now apply selected_in. }
  assert (SelN : forall x, netT (flat_map trace (map lpoly (selected keep L))) x = 0).
  { intros x. induction SelC as [|p t Hp Ht IH]; [reflexivity|]. cbn [flat_map]. rewrite netT_app, IH, closed_net by auto. lra. }
  assert (AT : forall i, (i < length slices)%nat -> In (sliceAt slices i) slices) by (intros i Hi; unfold sliceAt; now apply nth_In).
  assert (SH : forall s, In s slices -> (2 <= length (vertexes s))%nat /\ (length (vertexes s) = 2%nat -> pos (hd vdflt (vertexes s)) <> pos (last (vertexes s) vdflt)) /\
     exists i, meeting L i (pos (hd vdflt (vertexes s))) /\ meeting L i (pos (last (vertexes s) vdflt))).
  { intros s Hs. destruct (slice_of s Hs) as (i & li & l & Hi & -> & Hl). cbn [vertexes]. pose proof (split_of i li l Hi (or_introl Hl)) as Pl. destruct (loop_ok L HP HI i li Hi) as (Ci & Si & _).
    split; [apply (part_len (lpoly li) (meeting L i)); auto|]. split; [apply (part_shape (lpoly li) (meeting L i) (cuts i) Ci Si (lp_spaced L HP i li Hi) (cuts_sound i li Hi) l Pl)|].
    destruct Pl as (k & a & e & b & _ & _ & Rn & _ & Xa & Xb). destruct (run_ends _ _ _ _ _ _ Rn) as (E1 & E2 & _). exists i. rewrite E1, E2. auto. }
  assert (HJ : forall i j, (i < length slices)%nat -> (j < length slices)%nat -> joins slices sliceJoinThreshold i j <-> endOf slices i = startOf slices j).
  { intros i j Hi Hj. destruct (SH _ (AT i Hi)) as (_ & _ & a & _ & C1). destruct (SH _ (AT j Hj)) as (_ & _ & b & C2 & _). unfold joins. rewrite sjt_R. fold (endOf slices i) in C1. fold (startOf slices j) in C2. split.
    - intros [D1 D2]. destruct (Classical_Prop.classic (endOf slices i = startOf slices j)) as [|N']; [auto|]. destruct (lp_apart L HP a b _ _ C1 C2 N') as [W|W]; lra.
    - intros ->. rewrite !Rminus_eq_0, Rabs_R0. lra. }
  assert (Hbal : forall x, net slices (seq 0 (length slices)) x = 0).
  { intros x. rewrite net_of by (intros s Hin Q; destruct (SH s Hin) as (R1 & _); rewrite Q in R1; cbn in R1; lia). pose proof (all_balance x) as B. rewrite <- (netT_perm _ _ x traces_perm), netT_app, SelN in B. lra. }
  assert (Hsel : forall cur avail, (cur < length slices)%nat -> avail <> [] -> (forall c, In c avail -> (c < length slices)%nat) -> exists c, stitchFirstAvailable cur avail = Ok (Some c) /\ In c avail).
  { intros cur [|a av] _ Ha _; [congruence|]. exists a. split; [reflexivity|now left]. }
  destruct (stitch_complete slices stitchFirstAvailable sliceJoinThreshold HJ Hbal Hsel sjt_pos slices_len (proj1 C34_selectors)) as (rem & Er & Cl & P).
  { intros i Hi. destruct (SH _ (AT i Hi)) as (R1 & R2 & _). auto. }
  rewrite Est in Er. injection Er as <-. split; [apply List.Forall_app; auto|]. rewrite flat_map_app. rewrite P. apply traces_perm.
Qed.

Lemma backgrounds : prodZ (map (backA input) (seq 0 m)) = if pdec (forall k P, inputLoop input k P -> getArea (lpoly P) < 0) then 1%Z else 0%Z.
Proof.
  clear Hfew.
  assert (V : forall k P, inputLoop input k P -> (backA input k = 0%Z \/ backA input k = 1%Z) /\ (backA input k = 1%Z <-> getArea (lpoly P) < 0)).
  { intros k P HPk. unfold backA, inputs. unfold inputLoop in HPk. rewrite HPk. unfold background. destruct (Rlt_dec _ _); split; auto; split; auto; [discriminate|lra]. }
  assert (V01 : forall x, In x (map (backA input) (seq 0 m)) -> x = 0%Z \/ x = 1%Z).
  { intros x Hx. apply in_map_iff in Hx. destruct Hx as (k & <- & Hk). apply in_seq in Hk. destruct (input_at input k ltac:(lia)) as (P & HPk). now apply (V k P). }
  destruct (pdec _) as [Hy|Hn].
  - apply (prodZ_1 _ V01). intros x Hx. apply in_map_iff in Hx. destruct Hx as (k & <- & Hk). apply in_seq in Hk. destruct (input_at input k ltac:(lia)) as (P & HPk). apply (V k P HPk). exact (Hy k P HPk).
  - destruct (prodZ_01 _ V01) as [E|E]; [exact E|]. exfalso. apply Hn. intros k P HPk. apply (V k P HPk). apply (proj1 (prodZ_1 _ V01) E). apply in_map_iff. exists k. split; [reflexivity|]. apply in_seq. pose proof (input_lt input k P HPk). lia.
Qed.

Lemma result_winding q : (forall i, ~ meeting L i q) -> (forall p, In p (map lpoly (selected keep L) ++ st) -> ~ onPath p q) ->
  windingSum (map lpoly (selected keep L) ++ st) q = (Psi n m pl (parA L) (backA input) q - prodZ (map (backA input) (seq 0 m)))%Z /\ offT (allK n Kt) q.
Proof.
  intros NM Off. destruct stitched_all as [Cl P].
  assert (Ho : offT (allK n Kt) q).
  { intros e He O. apply (Permutation_in _ (Permutation_sym P)) in He. apply in_flat_map in He. destruct He as (p & Hp & He). apply (Off p Hp). apply onPath_trace. eauto. }
  split; [|exact Ho]. apply eq_IZR. apply Rmult_eq_reg_l with (2 * PI); [|pose proof PI_RGT_0; lra]. rewrite <- (all_turn q NM Ho), <- (windingSum_turn _ q Cl).
  - unfold turnT. apply sumR_perm, Permutation_map, P.
  - intros e He. apply (Permutation_in _ P) in He. unfold allK in He. apply in_flat_map in He. destruct He as (i & Hi & He). apply in_seq in Hi. apply (hyp_OK i); [lia|]. apply in_or_app. now left.
  - exact Off.
Qed.
End Result.

(** ** The property *)
(** no more than 2^24 pieces can arise *)
Definition fewMeetings (L : list offsetLoop) : Prop :=
  exists M : list vec, (forall i q, meeting L i q -> In q M) /\ (Z.of_nat (length M * list_sum (map (fun l => length (vertexes (lpoly l))) L)) <= 2 ^ 24)%Z.
(** the winding number far away: 1 if all input loops are clockwise, so that the permitted region is unbounded *)
Definition backgroundAll (input : loopSet) : Z := if pdec (forall k P, inputLoop input k P -> getArea (lpoly P) < 0) then 1%Z else 0%Z.

Theorem C66_islands_region {SL : StdLib} {SLaws : StdLaws SL} o input d o' r L : (forall l, In l (ccwLoops input ++ cwLoops input) -> wellMade l) -> 1 / 10000 <= Rabs d ->
  offsetLoops input (Rabs d) L -> manageable L -> fewMeetings L -> loopsPosition L ->
  offsetsExact input (Rabs d) L -> arranged input (Rabs d) -> decisiveIslands input (Rabs d) L ->
  compute o input d = Ok (o', r) ->
  exists tiny : list polyline, (forall p, In p tiny -> Rabs (getArea p) < 1 / 10000) /\
    let curves := map lpoly (ccwLoops r ++ cwLoops r) ++ tiny in
    List.Forall closedPline curves /\
    (forall p q, In p curves -> onPath p q -> jointOffset input (Rabs d) q) /\
    (forall q, jointOffset input (Rabs d) q -> (forall i, ~ meeting L i q) -> exists p, In p curves /\ onPath p q) /\
    (forall q, (forall i, ~ meeting L i q) -> (forall p, In p curves -> ~ onPath p q) ->
       (permittedByAll input (Rabs d) q -> (backgroundAll input + windingSum curves q)%Z = 1%Z) /\
       (~ permittedByAll input (Rabs d) q -> (backgroundAll input + windingSum curves q)%Z = 0%Z)).
Proof.
  intros HW HD HL HMg (M & HM & Hfew) HP HE HA HZ E. pose proof (proj2 HL) as HI. set (D := Rabs d) in *.
  destruct (C60_islands o input d o' r L) as (keep & cuts & passes & slices & st & nc & nw & Hkeep & Hcuts & Hpass & Hperm & Est & Ec & Enc & Ew & Enw & _); auto.
  { intros l Hl. destruct (HW l Hl) as (A & B & _). split; auto. } { intros i l Hi. now apply (cut_apart L HP HI). }
  fold D in Hkeep, Hpass. set (all := map lpoly (selected keep L) ++ st).
  set (tiny := filter (fun p => negb (Rleb (1 / 10000) (getArea p))) (filter (fun p => negb (Rleb (getArea p) (- (1 / 10000)))) st)). exists tiny. split.
  { intros p Hp. unfold tiny in Hp. apply filter_In in Hp. destruct Hp as [Hp H1]. apply filter_In in Hp. destruct Hp as [_ H2]. apply negb_true_iff, Rleb_false in H1. apply negb_true_iff, Rleb_false in H2. apply Rabs_def1; lra. }
  assert (PC : Permutation (map lpoly (ccwLoops r ++ cwLoops r) ++ tiny) all).
  { rewrite Ec, Ew. unfold all. rewrite !map_app, Enc, Enw.
    rewrite <- (filter_two (fun l => Rltb (getArea (lpoly l)) 0) (selected keep L)) at 3. rewrite <- (filter_two (fun p => Rleb (getArea p) (- (1 / 10000))) st) at 3.
    rewrite <- (filter_two (fun p => Rleb (1 / 10000) (getArea p)) (filter (fun p => negb (Rleb (getArea p) (- (1 / 10000)))) st)). fold tiny.
    assert (E1 : filter (fun p => Rleb (1 / 10000) (getArea p)) (filter (fun p => negb (Rleb (getArea p) (- (1 / 10000)))) st) = filter (fun p => Rleb (1 / 10000) (getArea p)) st).
    { clear. induction st as [|p t IH]; [reflexivity|]. cbn [filter]. destruct (Rleb (getArea p) (- (1 / 10000))) eqn:E1; cbn [negb filter]; destruct (Rleb (1 / 10000) (getArea p)) eqn:E2; try (rewrite IH; reflexivity). apply Rleb_spec in E1, E2. lra. }
    rewrite E1, map_app. set (A := map lpoly (filter (fun l => negb (Rltb (getArea (lpoly l)) 0)) (selected keep L))). set (B := map lpoly (filter (fun l => Rltb (getArea (lpoly l)) 0) (selected keep L))).
    set (X := filter (fun p => Rleb (1 / 10000) (getArea p)) st). set (Y := filter (fun p => Rleb (getArea p) (- (1 / 10000))) st). clearbody A B X Y tiny. clear.
    transitivity (((B ++ A) ++ (Y ++ X)) ++ tiny); [|rewrite <- !app_assoc; apply Permutation_refl]. apply Permutation_app_tail.
    rewrite (Permutation_app_comm B A), (Permutation_app_comm Y X). rewrite <- !app_assoc. apply Permutation_app_head. rewrite !app_assoc. apply Permutation_app_tail. apply Permutation_app_comm. }
  pose proof (stitched_all input D L HP HI HD HW HE HA HZ keep cuts passes Hkeep Hcuts Hpass slices st M Hperm Est HM Hfew) as [Cl P]. fold all in Cl, P. cbv zeta.
  assert (In' : forall p, In p (map lpoly (ccwLoops r ++ cwLoops r) ++ tiny) <-> In p all) by (intros p; split; apply Permutation_in; [auto|now apply Permutation_sym]).
  split; [apply List.Forall_forall; intros p Hp; apply In' in Hp; revert p Hp; now apply List.Forall_forall|]. split; [|split].
  - intros p q Hp Oq. apply In' in Hp. apply onPath_trace in Oq. destruct Oq as (e & He & Oe). assert (Hin : In e (allK (length L) (Kt L keep cuts passes))) by (apply (Permutation_in _ P), in_flat_map; eauto).
    unfold allK in Hin. apply in_flat_map in Hin. destruct Hin as (i & Hi & Hin). apply in_seq in Hi. destruct (loop_at L i ltac:(lia)) as (li & Ei).
    exact (kept_joint input D L HP HI HD HW HE HA HZ keep cuts passes Hkeep Hcuts Hpass i li e q Ei Hin Oe).
  - intros q Hj NM. destruct (joint_kept input D L HP HI HD HW HE HA HZ keep cuts passes Hkeep Hcuts Hpass q Hj NM) as (e & He & Oe). apply (Permutation_in _ (Permutation_sym P)) in He. apply in_flat_map in He. destruct He as (p & Hp & He).
    exists p. split; [now apply In'|]. apply onPath_trace. eauto.
  - intros q NM Off. assert (Ew' : windingSum (map lpoly (ccwLoops r ++ cwLoops r) ++ tiny) q = windingSum all q).
    { unfold windingSum. clear -PC. induction PC as [|x a b _ IH|x y a|a b c _ IH1 _ IH2]; cbn [map fold_right]; lia. }
    rewrite Ew'. destruct (result_winding input D L HP HI HD HW HE HA HZ keep cuts passes Hkeep Hcuts Hpass slices st M Hperm Est HM Hfew q NM) as [W Ho]; [intros p Hp; apply Off; now apply In'|]. fold all in W. rewrite W, backgrounds. fold (backgroundAll input).
    destruct (psi_permitted input D L HP HI HD HW HE HA HZ keep cuts passes Hkeep Hcuts Hpass q NM Ho) as [P1 P0]. split; intros H; [rewrite (P1 H)|rewrite (P0 H)]; lia.
Qed.
