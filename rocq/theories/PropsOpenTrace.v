(** * The stretches of an open polyline between its cuts *)
From Coq Require Import ZArith Reals Lra Lia Psatz List Bool Arith Permutation Sorted.
From Verif Require Import Base Num MathUtils PlineSegment SpatialIndex Polyline Intersects Combine StdLaws RGeom Spec PropsMath ArcGeom Polar PropsSegment PropsClosest PropsIntr PropsPlineIntr PropsPolyline Turning PropsWinding PropsRegion PropsCoincident PropsSlices PropsPieces PropsTrace PropsPlineIndex PropsBoolOps PropsCover PropsRunPoints.
Import ListNotations.
Open Scope R_scope.

(** ** Specification *)
(** the stretch from the start of an open polyline to its first cut *)
Definition firstRun {SL : StdLib} (pl : polyline) (cs : list (nat * slicePoint)) : list (list vertex) :=
  match find (fun d => match sortedCuts pl cs d with [] => false | _ => true end) (seq 0 (length (vertexes pl))) with
  | Some d =>
      match sortedCuts pl cs d with
      | q :: _ => [map (vert pl 0) (seq 0 d) ++ [updatedStart (splitAtPoint (vert pl 0 d) (vert pl 0 (S d)) (spPos q)); mkVtx (spPos q) t0]]
      | [] => []
      end
  | None => []
  end.

(** the stretches that begin at a cut of segment k; nothing begins at the end of the polyline *)
Definition stretchesO {SL : StdLib} (pl : polyline) (cs : list (nat * slicePoint)) (k : nat) : list (list vertex) :=
  match sortedCuts pl cs k with
  | [] => []
  | p :: rest => between (vert pl k 1) (splitVertex (splitAtPoint (vert pl k 0) (vert pl k 1) (spPos p))) p rest ++
      (if (S (S k) =? length (vertexes pl))%nat then [] else onward pl cs k (last rest p))
  end.

Definition openParts {SL : StdLib} (pl : polyline) (cs : list (nat * slicePoint)) : list (list vertex) :=
  firstRun pl cs ++ flat_map (stretchesO pl cs) (seq 0 (length (vertexes pl) - 1)).

(** [l] is a stretch of the open polyline from its start or a point of [X] to the next point of [X] or the end *)
Definition partOpen (pl : polyline) (X : vec -> Prop) (l : list vertex) : Prop :=
  exists k a d b, (S (k + d) < length (vertexes pl))%nat /\ run pl k a d b l /\ clearOf pl X k a d b /\
    (X (seg pl k a) \/ (k = 0%nat /\ a = 0)) /\ (X (seg pl (k + d) b) \/ (S (S (k + d)) = length (vertexes pl) /\ b = 1)).

(** the open polyline, cut at the points of [X] *)
Definition cutOpen (pl : polyline) (X : vec -> Prop) (parts : list (list vertex)) : Prop :=
  (forall l, In l parts -> partOpen pl X l) /\ forall q, onPath pl q -> exists l, In l parts /\ onPath (mkPline false l) q.

(** ** Proofs *)
Lemma split_end w v : far (pos w) (pos v) -> splitAtPoint w v (pos v) = mkSplit w (mkVtx (pos v) t0).
Proof.
  intros F. unfold splitAtPoint. destruct (bulgeIsZero w); [reflexivity|]. rewrite prec_R, (proj1 (far_fuzzy _ _) F). cbn [orb].
  assert (E : fuzzyEqual (pos v) (pos v) (1 / 100000) = true) by (apply fuzzyEqual_R; rewrite !Rminus_diag_eq, Rabs_R0 by reflexivity; lra). now rewrite E.
Qed.

Lemma split_again p v : splitAtPoint (mkVtx p t0) v p = mkSplit (mkVtx p t0) (mkVtx p t0).
Proof. unfold splitAtPoint. assert (E : bulgeIsZero (mkVtx p t0) = true) by (apply bulgeIsZero_R; unfold isLine; cbn [bulge]; rewrite t0_R, Rabs_R0; lra). now rewrite E. Qed.

Lemma find_first P len st d : find P (seq st len) = Some d -> (st <= d < st + len)%nat /\ P d = true /\ forall e, (st <= e < d)%nat -> P e = false.
Proof.
  revert st. induction len as [|len IH]; intros st E; [discriminate|]. cbn [seq find] in E. destruct (P st) eqn:Ep.
  - injection E as <-. split; [lia|]. split; [auto|]. intros; lia.
  - destruct (IH (S st) E) as (H1 & H2 & H3). split; [lia|]. split; [auto|]. intros e He. destruct (Nat.eq_dec e st) as [->|]; [auto|apply H3; lia].
Qed.

Section Open.
Context {SL : StdLib} {SLaws : StdLaws SL}.
Context (pl : polyline) (X : vec -> Prop) (cs : list (nat * slicePoint)).
Let n := length (vertexes pl).
Hypothesis (Hn : (2 <= n)%nat) (Hop : isClosed pl = false) (Hsmall : smallBulges pl).
Hypothesis Hfar : forall k, (S k < n)%nat -> far (pos (vert pl k 0)) (pos (vert pl k 1)).
Hypothesis Hcut : forall k c, In (k, c) cs -> (S k < n)%nat /\ spStart c = false /\
  exists t, 0 <= t <= 1 /\ spPos c = seg pl k t /\ far (pos (vert pl k 0)) (spPos c) /\ longArc (vert pl k 0) (vert pl k 1) (pos (vert pl k 0)) (spPos c) /\
    ((S (S k) = n /\ t = 1) \/ (X (spPos c) /\ far (spPos c) (pos (vert pl k 1)) /\ longArc (vert pl k 0) (vert pl k 1) (spPos c) (pos (vert pl k 1)))).
Hypothesis Hpair : forall k c c', In (k, c) cs -> In (k, c') cs -> spPos c = spPos c' \/ (far (spPos c) (spPos c') /\ longArc (vert pl k 0) (vert pl k 1) (spPos c) (spPos c')).
Hypothesis Hcomplete : forall k q, (S k < n)%nat -> onSeg (vert pl k 0) (vert pl k 1) q -> X q -> In (k, mkSP q false) cs.
Hypothesis Hend : In ((n - 2)%nat, mkSP (pos (vert pl (n - 2) 1)) false) cs.

Local Notation small := (vert_small pl Hn Hsmall).

Lemma seg_inj k s t : (S k < n)%nat -> 0 <= s <= 1 -> 0 <= t <= 1 -> seg pl k s = seg pl k t -> s = t.
Proof. intros Hk Hs Ht E. apply (segPath_inj (vert pl k 0) (vert pl k 1)); auto; [apply small|apply far_ne, Hfar, Hk]. Qed.

(** what is known of a cut given by its fraction *)
Lemma cut_at k t : In (k, mkSP (seg pl k t) false) cs -> 0 <= t <= 1 -> (S k < n)%nat /\ 0 < t /\ far (pos (vert pl k 0)) (seg pl k t) /\
  longArc (vert pl k 0) (vert pl k 1) (pos (vert pl k 0)) (seg pl k t) /\
  ((S (S k) = n /\ t = 1) \/ (t < 1 /\ X (seg pl k t) /\ far (seg pl k t) (pos (vert pl k 1)) /\ longArc (vert pl k 0) (vert pl k 1) (seg pl k t) (pos (vert pl k 1)))).
Proof.
  intros Hin Ht. destruct (Hcut _ _ Hin) as (Hk & _ & t' & Ht' & E & F0 & L0 & H). cbn [spPos] in *. apply seg_inj in E; auto. subst t'.
  split; [auto|]. split; [|split; [auto|split; [auto|]]].
  - apply Rnot_le_lt. intros L. apply (far_ne _ _ F0). replace t with 0 by lra. symmetry. apply segPath_0.
  - destruct H as [H|(H1 & H2 & H3)]; [now left|right]. split; [|auto]. apply Rnot_le_lt. intros L. apply (far_ne _ _ H2). replace t with 1 by lra. apply segPath_1.
Qed.

Lemma cut_paramsO k : (S k < n)%nat -> exists ts, sortedCuts pl cs k = map (fun t => mkSP (seg pl k t) false) ts /\ StronglySorted Rle ts /\
  (forall t, In t ts -> 0 <= t <= 1 /\ In (k, mkSP (seg pl k t) false) cs).
Proof.
  intros Hk. destruct (C33_sorted pl cs k) as [_ S]. assert (In' : forall c, In c (sortedCuts pl cs k) -> In (k, c) cs) by (intros c; apply sortedCuts_In).
  induction (sortedCuts pl cs k) as [|c l IH].
  - exists []. split; [reflexivity|]. split; [constructor|]. intros t [].
  - apply StronglySorted_inv in S. destruct S as [S F]. destruct IH as (ts & -> & St & Ht); [auto|intros; apply In'; now right|].
    pose proof (In' c (or_introl eq_refl)) as Hc. destruct (Hcut k c Hc) as (_ & Hst & t & Ht01 & Ep & _).
    assert (Ec : c = mkSP (seg pl k t) false). { clear - Hst Ep. destruct c as [p b]. cbn [spPos spStart] in *. subst. reflexivity. }
    exists (t :: ts). cbn [map]. rewrite <- Ec. split; [reflexivity|]. split.
    + constructor; [auto|]. apply List.Forall_forall. intros t' Hin'. rewrite List.Forall_forall in F.
      specialize (F (mkSP (seg pl k t') false) (in_map _ _ _ Hin')). cbn beta in F. rewrite Ec in F. cbn [spPos] in F.
      destruct (Ht t' Hin') as [Ht' _]. apply (start_dist_le (vert pl k 0) (vert pl k 1)); [apply small|apply far_ne, Hfar, Hk|auto|auto|].
      unfold seg in F. replace (at_ pl k) with (vert pl k 0) in F by (unfold vert; fold n; rewrite Nat.add_0_r, Nat.mod_small by lia; reflexivity). exact F.
    + intros t' [<-|Hin']; [|auto]. rewrite <- Ec. auto.
Qed.

Lemma param_in k ts : (S k < n)%nat -> sortedCuts pl cs k = map (fun t => mkSP (seg pl k t) false) ts -> (forall t, In t ts -> 0 <= t <= 1) ->
  forall t, 0 <= t <= 1 -> In (k, mkSP (seg pl k t) false) cs -> In t ts.
Proof.
  intros Hk Es Hts t Ht Hin. apply (sortedCuts_In pl) in Hin. rewrite Es in Hin. apply in_map_iff in Hin. destruct Hin as (t' & E & Hin). injection E as E.
  apply seg_inj in E; auto. now subst.
Qed.

Lemma meets_paramO k ts : (S k < n)%nat -> sortedCuts pl cs k = map (fun t => mkSP (seg pl k t) false) ts -> (forall t, In t ts -> 0 <= t <= 1) ->
  forall t, 0 <= t <= 1 -> X (seg pl k t) -> In t ts.
Proof. intros Hk Es Hts t Ht O. apply (param_in k); auto. apply Hcomplete; auto. apply onSeg_path. exists t. auto. Qed.

(** the state while walking along the cuts of segment k *)
Definition contO (k : nat) (a : R) (w : vertex) : Prop := cont pl k a w \/ (a = 1 /\ w = mkVtx (pos (vert pl k 1)) t0).

Lemma zero_bulge p : Rabs (bulge (mkVtx p t0)) <= 1.
Proof. cbn [bulge]. rewrite t0_R, Rabs_R0. lra. Qed.

Lemma first_contO k t : In (k, mkSP (seg pl k t) false) cs -> 0 <= t <= 1 ->
  let s := splitAtPoint (vert pl k 0) (vert pl k 1) (seg pl k t) in
  contO k t (splitVertex s) /\ piece (vert pl k 0) (vert pl k 1) 0 t (updatedStart s) (splitVertex s) /\ Rabs (bulge (updatedStart s)) <= 1 /\
  pos (updatedStart s) = pos (vert pl k 0) /\ pos (splitVertex s) = seg pl k t.
Proof.
  intros Hin Ht s. destruct (cut_at k t Hin Ht) as (Hk & H0 & F0 & L0 & [[_ ->]|(H1 & _ & F1 & L1)]).
  - unfold s, seg. rewrite segPath_1, split_end by (apply Hfar; auto). cbn [splitVertex updatedStart]. split; [right; auto|]. split; [now apply piece_whole|]. split; [apply small|]. split; [reflexivity|]. reflexivity.
  - destruct (split_piece (vert pl k 0) (vert pl k 1) t (small k 0%nat) (Hfar k Hk) Ht) as (P1 & P2 & P3 & P4 & P5 & P6 & P7 & P8 & _); auto.
    split; [|auto]. left. split; [lra|]. auto.
Qed.

Lemma next_contO k a b w : contO k a w -> a <= b <= 1 -> In (k, mkSP (seg pl k b) false) cs -> In (k, mkSP (seg pl k a) false) cs ->
  let s := splitAtPoint w (vert pl k 1) (seg pl k b) in
  contO k b (splitVertex s) /\ (a < b -> piece (vert pl k 0) (vert pl k 1) a b (updatedStart s) (splitVertex s) /\ Rabs (bulge (updatedStart s)) <= 1) /\
  pos (updatedStart s) = seg pl k a /\ pos (splitVertex s) = seg pl k b.
Proof.
  intros [Cw|[-> ->]] Hab Hb Hina s.
  2: { assert (b = 1) by lra. subst b. unfold s, seg. rewrite segPath_1, split_again. cbn [splitVertex updatedStart pos]. split; [right; auto|]. split; [intros; lra|auto]. }
  pose proof Cw as (Ha & Pw & Bw & Lw & Rw).
  assert (Epw : pos w = seg pl k a) by (apply (piece_start _ _ _ _ _ _ Pw)).
  destruct (cut_at k a Hina ltac:(lra)) as (Hk & Ha0 & _ & _ & [[_ ?]|(_ & _ & Fa & _)]); [lra|].
  destruct (cut_at k b Hb ltac:(lra)) as (_ & _ & _ & _ & [[_ ->]|(Hb1 & _ & Fb & L2)]).
  - unfold s, seg. rewrite segPath_1, split_end by (rewrite Epw; exact Fa). cbn [splitVertex updatedStart pos]. split; [right; auto|]. split; [|auto]. intros _. split; [|exact Bw].
    intros x. rewrite <- (Pw x). now apply segPath_end.
  - set (x := (b - a) / (1 - a)). assert (Hx : 0 <= x <= 1).
    { unfold x. split; [apply Rmult_le_pos; [lra|apply Rlt_le, Rinv_0_lt_compat; lra]|]. apply (Rmult_le_reg_r (1 - a)); [lra|]. unfold Rdiv. rewrite Rmult_assoc, Rinv_l by lra. lra. }
    assert (Ex : a + x * (1 - a) = b) by (unfold x; field; lra).
    assert (Eb : segPath w (vert pl k 1) x = seg pl k b) by (rewrite (Pw x), Ex; reflexivity).
    destruct (split_piece w (vert pl k 1) x Bw) as (P1 & P2 & P3 & P4 & P5 & P6 & P7 & P8 & _); auto.
    + rewrite Epw. exact Fa.
    + rewrite Eb, Epw. destruct (Hpair _ _ _ Hina Hb) as [E|[F L]]; cbn [spPos] in *; [auto|]. right. split; [auto|]. intros N. rewrite Rw by tauto. apply L. tauto.
    + rewrite Eb. exact Fb.
    + rewrite Eb. intros N. rewrite Rw by tauto. apply L2. tauto.
    + rewrite Eb in *. fold s in P1, P2, P3, P4, P5, P6, P7, P8. split; [|split; [|split]]; auto.
      * left. split; [lra|]. split; [|split; [auto|split; [tauto|]]].
        -- pose proof (piece_comp _ _ _ _ _ _ _ _ _ _ Pw P4) as H. rewrite Ex in H. replace (a + 1 * (1 - a)) with 1 in H by ring. exact H.
        -- intros N. rewrite P8 by tauto. auto.
      * intros _. split; [|auto]. pose proof (piece_comp _ _ _ _ _ _ _ _ _ _ Pw P3) as H. rewrite Ex in H. replace (a + 0 * (1 - a)) with a in H by ring. exact H.
      * congruence.
Qed.

Lemma contO_01 k a w : contO k a w -> 0 <= a <= 1.
Proof. intros [[? _]|[-> _]]; lra. Qed.

(** stretches within one segment *)
Lemma between_runsO k : forall ts a w, contO k a w -> In (k, mkSP (seg pl k a) false) cs ->
  StronglySorted Rle (a :: ts) -> (forall t, In t ts -> 0 <= t <= 1 /\ In (k, mkSP (seg pl k t) false) cs) ->
  forall l, In l (between (vert pl k 1) w (mkSP (seg pl k a) false) (map (fun t => mkSP (seg pl k t) false) ts)) ->
  exists a' b', In a' (a :: ts) /\ In b' (a :: ts) /\ run pl k a' 0 b' l /\ (forall t, In t (a :: ts) -> t <= a' \/ b' <= t).
Proof.
  induction ts as [|b ts IH]; intros a w Hw Ha Hs Ht l Hl; [destruct Hl|]. cbn [map between] in Hl. apply StronglySorted_inv in Hs. destruct Hs as [Hs Hf].
  destruct (Ht b (or_introl eq_refl)) as [Hb01 Hb]. assert (Hab : a <= b) by (rewrite List.Forall_forall in Hf; apply Hf; now left).
  destruct (next_contO k a b w Hw ltac:(lra) Hb Ha) as (Cb & Pb & E1 & E2). cbv zeta in *. cbn [spPos spStart orb] in Hl. set (s := splitAtPoint w (vert pl k 1) (seg pl k b)) in *.
  apply in_app_or in Hl. destruct Hl as [Hl|Hl].
  - rewrite E1, E2, prec_R in Hl. destruct (fuzzyEqual (seg pl k a) (seg pl k b) (1 / 100000)) eqn:Ef; [destruct Hl|]. destruct Hl as [<-|[]].
    assert (a <> b) as Nab. { intros ->. apply far_fuzzy, far_ne in Ef. now apply Ef. }
    destruct (Pb ltac:(lra)) as [Pb1 Bb]. exists a, b. split; [now left|]. split; [right; now left|]. split.
    + split; [apply contO_01 in Hw; lra|]. split; [auto|]. exists (updatedStart s), (splitVertex s). repeat split; auto. lra.
    + intros t [<-|[<-|Hin]]; [left; lra|right; lra|]. right. apply StronglySorted_inv in Hs. destruct Hs as [_ Hs]. rewrite List.Forall_forall in Hs. auto.
  - destruct (IH b (splitVertex s) Cb Hb Hs (fun t H => Ht t (or_intror H)) l Hl) as (a' & b' & I1 & I2 & R & G).
    exists a', b'. split; [now right|]. split; [now right|]. split; [auto|]. intros t [<-|Hin]; [|auto].
    left. rewrite List.Forall_forall in Hf. apply Hf. exact I1.
Qed.

Lemma between_coversO k : (S k < n)%nat -> forall ts a w t, contO k a w -> In (k, mkSP (seg pl k a) false) cs -> StronglySorted Rle (a :: ts) ->
  (forall t, In t ts -> 0 <= t <= 1 /\ In (k, mkSP (seg pl k t) false) cs) -> a <= t <= last ts a -> a < last ts a ->
  exists l, In l (between (vert pl k 1) w (mkSP (seg pl k a) false) (map (fun t => mkSP (seg pl k t) false) ts)) /\ onPath (mkPline false l) (seg pl k t).
Proof.
  intros Hk. induction ts as [|b ts IH]; intros a w t Hw Ha Hs Ht Hat Hlt; [cbn in Hlt; lra|].
  cbn [map between]. apply StronglySorted_inv in Hs. destruct Hs as [Hs Hf].
  destruct (Ht b (or_introl eq_refl)) as [Hb01 Hb]. assert (Hab : a <= b) by (rewrite List.Forall_forall in Hf; apply Hf; now left).
  destruct (next_contO k a b w Hw ltac:(lra) Hb Ha) as (Cb & Pb & E1 & E2). cbv zeta in *. cbn [spPos spStart orb]. set (s := splitAtPoint w (vert pl k 1) (seg pl k b)) in *.
  assert (El : last (b :: ts) a = last ts b). { clear. destruct ts as [|c l]; [reflexivity|]. change (last (b :: c :: l) a) with (last (c :: l) a). revert c. induction l as [|d l IH]; intros c; [reflexivity|apply (IH d)]. }
  rewrite El in Hat, Hlt. assert (Hlast : b <= last ts b) by (apply (last_le ts b b Hs); now left).
  destruct (Rlt_le_dec a b) as [Lab|Lab]; [destruct (Rle_lt_dec t b) as [Ltb|Ltb]|].
  - destruct (Pb Lab) as [Pb1 Bb]. exists [updatedStart s; splitVertex s]. split.
    + rewrite E1, E2, prec_R. replace (fuzzyEqual (seg pl k a) (seg pl k b) (1 / 100000)) with false; [apply in_or_app; left; now left|]. symmetry. apply far_fuzzy.
      destruct (Hpair _ _ _ Ha Hb) as [E|[F _]]; cbn [spPos] in *; [|exact F]. apply seg_inj in E; [lra|auto|apply contO_01 in Hw; lra|auto].
    + apply (run_onRun pl k a 0 b); [exact Hn| |]. { split; [apply contO_01 in Hw; lra|]. split; [lra|]. exists (updatedStart s), (splitVertex s). auto. } exists t. split; [lra|reflexivity].
  - destruct (IH b (splitVertex s) t Cb Hb Hs (fun t H => Ht t (or_intror H)) ltac:(lra) ltac:(lra)) as (l & Hl & Ol). exists l. split; [apply in_or_app; now right|auto].
  - assert (a = b) by lra. subst b. destruct (IH a (splitVertex s) t Cb Hb Hs (fun t H => Ht t (or_intror H)) ltac:(lra) ltac:(lra)) as (l & Hl & Ol). exists l. split; [apply in_or_app; now right|auto].
Qed.

(** the last piece of a run that ends at the first cut of segment k *)
Lemma last_piece k t : In (k, mkSP (seg pl k t) false) cs -> 0 <= t <= 1 ->
  let us := updatedStart (splitAtPoint (vert pl k 0) (vert pl k 1) (seg pl k t)) in
  piece (vert pl k 0) (vert pl k 1) 0 t us (mkVtx (seg pl k t) t0) /\ Rabs (bulge us) <= 1 /\ pos us = pos (vert pl k 0).
Proof.
  intros Hin Ht us. destruct (first_contO k t Hin Ht) as (_ & P & B & E1 & E2). cbv zeta in *. split; [|auto]. intros s. rewrite <- (P s). apply segPath_end. cbn [pos]. now rewrite E2.
Qed.

Lemma vert_small_mod k d : (k + d < n)%nat -> vert pl (k + d) 0 = vert pl k d /\ ((S (k + d) < n)%nat -> vert pl (k + d) 1 = vert pl k (S d)).
Proof. intros H. rewrite !vert_shift. rewrite Nat.add_0_r. split; [auto|]. intros _. f_equal. lia. Qed.

Lemma nonempty_end : exists ts, sortedCuts pl cs (n - 2) = map (fun t => mkSP (seg pl (n - 2) t) false) ts /\ StronglySorted Rle ts /\
  (forall t, In t ts -> 0 <= t <= 1 /\ In ((n - 2)%nat, mkSP (seg pl (n - 2) t) false) cs) /\ In 1 ts.
Proof.
  destruct (cut_paramsO (n - 2) ltac:(lia)) as (ts & E & S & H). exists ts. split; [auto|]. split; [auto|]. split; [auto|]. apply (param_in (n - 2)); auto; [lia|intros t Ht; now apply H|lra|].
  unfold seg. rewrite segPath_1. exact Hend.
Qed.

(** the run onward from the last cut of a segment before the last *)
Lemma onward_run k a ts : (S (S k) < n)%nat -> sortedCuts pl cs k = map (fun t => mkSP (seg pl k t) false) (a :: ts) -> (forall t, In t (a :: ts) -> 0 <= t <= 1 /\ In (k, mkSP (seg pl k t) false) cs) ->
  exists d b ts' l, (1 <= d)%nat /\ (S (k + d) < n)%nat /\ (forall e, (1 <= e < d)%nat -> sortedCuts pl cs (k + e) = []) /\
    sortedCuts pl cs (k + d) = map (fun t => mkSP (seg pl (k + d) t) false) (b :: ts') /\ StronglySorted Rle (b :: ts') /\ (forall t, In t (b :: ts') -> 0 <= t <= 1 /\ In ((k + d)%nat, mkSP (seg pl (k + d) t) false) cs) /\
    onward pl cs k (mkSP (seg pl k (last ts a)) false) = [l] /\ run pl k (last ts a) d b l.
Proof.
  intros Hk Es Ht. set (z := last ts a). destruct (Ht z (last_In a ts)) as [Hz01 Hz]. destruct (first_contO k z Hz Hz01) as (Cz & _). cbv zeta in Cz.
  destruct (cut_at k z Hz Hz01) as (_ & _ & _ & _ & [[? _]|(Hz1 & _)]); [lia|]. destruct Cz as [(_ & Pz & Bz & _)|[? _]]; [|lra].
  unfold onward. cbn [spStart spPos]. fold n. set (P := fun d => match sortedCuts pl cs ((k + d) mod n) with [] => false | _ :: _ => true end).
  destruct (find P (seq 1 n)) as [d|] eqn:Ed.
  2: { exfalso. pose proof (find_none _ _ Ed (n - 2 - k)%nat ltac:(apply in_seq; lia)) as H. unfold P in H. replace (k + (n - 2 - k))%nat with (n - 2)%nat in H by lia. rewrite Nat.mod_small in H by lia.
       destruct nonempty_end as (te & Ee & _ & _ & He). rewrite Ee in H. destruct te; [destruct He|discriminate]. }
  destruct (find_first _ _ _ _ Ed) as (Hd & HPd & Hno).
  assert (Hdn : (k + d <= n - 2)%nat).
  { destruct (le_lt_dec (k + d) (n - 2)) as [|L]; [auto|]. exfalso. specialize (Hno (n - 2 - k)%nat ltac:(lia)). unfold P in Hno. replace (k + (n - 2 - k))%nat with (n - 2)%nat in Hno by lia. rewrite Nat.mod_small in Hno by lia.
    destruct nonempty_end as (te & Ee & _ & _ & He). rewrite Ee in Hno. destruct te; [destruct He|discriminate]. }
  unfold P in HPd. rewrite Nat.mod_small in * by lia. destruct (cut_paramsO (k + d) ltac:(lia)) as (ts' & Es' & Hs' & Ht'). rewrite Es' in HPd. destruct ts' as [|b ts']; [discriminate|].
  destruct (Ht' b (or_introl eq_refl)) as [Hb01 Hb]. destruct (cut_at (k + d) b Hb Hb01) as (Hkd & Hb0 & _). destruct (last_piece (k + d) b Hb Hb01) as (Pb & Bb & Eb). cbv zeta in Pb, Bb, Eb.
  destruct (vert_small_mod k d ltac:(lia)) as [V0 V1]. specialize (V1 Hkd). rewrite V0, V1 in Pb, Bb, Eb.
  exists d, b, ts'. eexists. split; [lia|]. split; [lia|]. split; [|split; [exact Es'|split; [exact Hs'|split; [exact Ht'|split]]]].
  - intros e He. specialize (Hno e ltac:(lia)). unfold P in Hno. rewrite Nat.mod_small in Hno by lia. destruct (sortedCuts pl cs (k + e)); [auto|discriminate].
  - rewrite Es'. cbn [map]. reflexivity.
  - cbn [spPos]. split; [lra|]. split; [lra|]. destruct d as [|d']; [lia|]. do 3 eexists. split; [replace (S d' - 1)%nat with d' by lia; reflexivity|]. split; [lra|]. split; [lra|]. split; [exact Pz|]. split; [exact Bz|]. auto.
Qed.

(** the run from the start *)
Lemma first_run : exists d b ts' l, (S d < n)%nat /\ (forall e, (e < d)%nat -> sortedCuts pl cs e = []) /\
    sortedCuts pl cs d = map (fun t => mkSP (seg pl d t) false) (b :: ts') /\ StronglySorted Rle (b :: ts') /\ (forall t, In t (b :: ts') -> 0 <= t <= 1 /\ In (d, mkSP (seg pl d t) false) cs) /\
    firstRun pl cs = [l] /\ l = map (vert pl 0) (seq 0 d) ++ [updatedStart (splitAtPoint (vert pl 0 d) (vert pl 0 (S d)) (seg pl d b)); mkVtx (seg pl d b) t0] /\ run pl 0 0 d b l.
Proof.
  unfold firstRun. fold n. set (P := fun d => match sortedCuts pl cs d with [] => false | _ :: _ => true end).
  destruct (find P (seq 0 n)) as [d|] eqn:Ed.
  2: { exfalso. pose proof (find_none _ _ Ed (n - 2)%nat ltac:(apply in_seq; lia)) as H. unfold P in H. destruct nonempty_end as (te & Ee & _ & _ & He). rewrite Ee in H. destruct te; [destruct He|discriminate]. }
  destruct (find_first _ _ _ _ Ed) as (Hd & HPd & Hno).
  assert (Hdn : (d <= n - 2)%nat).
  { destruct (le_lt_dec d (n - 2)) as [|L]; [auto|]. exfalso. specialize (Hno (n - 2)%nat ltac:(lia)). unfold P in Hno.
    destruct nonempty_end as (te & Ee & _ & _ & He). rewrite Ee in Hno. destruct te; [destruct He|discriminate]. }
  unfold P in HPd. destruct (cut_paramsO d ltac:(lia)) as (ts' & Es' & Hs' & Ht'). rewrite Es' in HPd. destruct ts' as [|b ts']; [discriminate|].
  destruct (Ht' b (or_introl eq_refl)) as [Hb01 Hb]. destruct (cut_at d b Hb Hb01) as (Hkd & Hb0 & _). destruct (last_piece d b Hb Hb01) as (Pb & Bb & Eb). cbv zeta in Pb, Bb, Eb.
  destruct (vert_small_mod 0 d ltac:(lia)) as [V0 V1]. cbn [plus] in V0, V1. specialize (V1 Hkd). rewrite V0, V1 in Pb, Bb, Eb.
  exists d, b, ts'. eexists. split; [lia|]. split; [|split; [exact Es'|split; [exact Hs'|split; [exact Ht'|split; [|split; [reflexivity|]]]]]].
  - intros e He. specialize (Hno e ltac:(lia)). unfold P in Hno. destruct (sortedCuts pl cs e); [auto|discriminate].
  - rewrite Es'. cbn [map spPos]. reflexivity.
  - split; [lra|]. split; [lra|]. destruct d as [|d'].
    + do 2 eexists. split; [reflexivity|]. split; [lra|]. split; [exact Pb|exact Bb].
    + exists (vert pl 0 0). do 2 eexists. split; [reflexivity|]. split; [lra|]. split; [lra|]. split; [now apply piece_whole|]. split; [apply small|]. auto.
Qed.

Lemma no_cut k t : (S k < n)%nat -> sortedCuts pl cs k = [] -> 0 <= t <= 1 -> ~ X (seg pl k t).
Proof. intros Hk E Ht O. destruct (meets_paramO k [] Hk E ltac:(intros ? []) t Ht O). Qed.

Lemma before_first k b ts t : (S k < n)%nat -> sortedCuts pl cs k = map (fun t => mkSP (seg pl k t) false) (b :: ts) -> StronglySorted Rle (b :: ts) -> (forall t, In t (b :: ts) -> 0 <= t <= 1 /\ In (k, mkSP (seg pl k t) false) cs) ->
  0 <= t < b -> ~ X (seg pl k t).
Proof.
  intros Hk Es Hs Ht Htb O. destruct (Ht b (or_introl eq_refl)) as [Hb01 _]. assert (Hin : In t (b :: ts)) by (apply (meets_paramO k (b :: ts) Hk Es); [intros; now apply Ht|lra|auto]).
  apply StronglySorted_inv in Hs. destruct Hs as [_ Hs]. destruct Hin as [<-|Hin]; [lra|]. rewrite List.Forall_forall in Hs. specialize (Hs t Hin). lra.
Qed.

Lemma cut_X k t : In (k, mkSP (seg pl k t) false) cs -> 0 <= t <= 1 -> X (seg pl k t) \/ (S (S k) = n /\ t = 1).
Proof. intros H Ht. destruct (cut_at k t H Ht) as (_ & _ & _ & _ & [?|(_ & ? & _)]); auto. Qed.

(** every part is a stretch between neighbouring cuts *)
Theorem open_part l : In l (openParts pl cs) -> partOpen pl X l.
Proof.
  intros Hl. unfold openParts in Hl. fold n in Hl. apply in_app_or in Hl. destruct Hl as [Hl|Hl].
  - destruct first_run as (d & b & ts' & l' & Hd & Hno & Es & Hs & Ht & Ef & _ & R). rewrite Ef in Hl. destruct Hl as [<-|[]].
    destruct (Ht b (or_introl eq_refl)) as [Hb01 Hb]. exists 0%nat, 0, d, b. cbn [plus]. fold n. split; [auto|]. split; [auto|]. split; [|split; [right; auto|now apply cut_X]].
    destruct d as [|d']; cbn [clearOf plus].
    + intros t H. apply (before_first 0 b ts'); auto. lra.
    + split; [|split].
      * intros t H. apply no_cut; [lia|apply Hno; lia|lra].
      * intros e t He H. apply no_cut; [lia|apply Hno; lia|lra].
      * intros t H. apply (before_first (S d') b ts'); auto.
  - apply in_flat_map in Hl. destruct Hl as (k & Hk & Hl). apply in_seq in Hk. unfold stretchesO in Hl. fold n in Hl.
    destruct (cut_paramsO k ltac:(lia)) as (ts & Es & Hs & Ht). rewrite Es in Hl. destruct ts as [|a ts]; [destruct Hl|]. cbn [map] in Hl.
    destruct (Ht a (or_introl eq_refl)) as [Ha01 Ha]. destruct (first_contO k a Ha Ha01) as (Ca & _). cbv zeta in Ca. cbn [spPos] in Hl.
    apply in_app_or in Hl. destruct Hl as [Hl|Hl].
    + destruct (between_runsO k ts a _ Ca Ha Hs (fun t H => Ht t (or_intror H)) l Hl) as (a' & b' & I1 & I2 & R & G).
      destruct (Ht a' I1) as [Ha'01 Ha']. destruct (Ht b' I2) as [Hb'01 Hb']. assert (Hab : a' < b') by (destruct R as (_ & _ & ? & ? & _ & ? & _); auto).
      exists k, a', 0%nat, b'. rewrite Nat.add_0_r. fold n. split; [lia|]. split; [auto|]. split; [|split].
      * intros t Htt O. destruct (G t); [|lra|lra]. apply (meets_paramO k (a :: ts)); [lia|exact Es|intros; now apply Ht|lra|auto].
      * destruct (cut_X k a' Ha' Ha'01) as [|[_ ?]]; [auto|lra].
      * now apply cut_X.
    + destruct (Nat.eqb_spec (S (S k)) n) as [|Nk]; [destruct Hl|]. rewrite (last_map (fun t => mkSP (seg pl k t) false) ts a) in Hl.
      destruct (onward_run k a ts ltac:(lia) Es Ht) as (d & b & ts' & l' & Hd & Hkd & Hno & Es' & Hs' & Ht' & Eo & R). rewrite Eo in Hl. destruct Hl as [<-|[]].
      destruct (Ht' b (or_introl eq_refl)) as [Hb01 Hb]. destruct (Ht _ (last_In a ts)) as [Hz01 Hz]. exists k, (last ts a), d, b. fold n. split; [auto|]. split; [auto|]. split; [|split].
      * destruct d as [|d']; [lia|]. cbn [clearOf]. split; [|split].
        -- intros t H O. assert (Hin : In t (a :: ts)) by (apply (meets_paramO k (a :: ts)); [lia|exact Es|intros; now apply Ht|lra|auto]). pose proof (last_le ts a t Hs Hin). lra.
        -- intros e t He H. apply no_cut; [lia|apply Hno; lia|lra].
        -- intros t H. apply (before_first (k + S d') b ts'); auto.
      * destruct (cut_X k _ Hz Hz01) as [|[? _]]; [auto|lia].
      * now apply cut_X.
Qed.

Lemma in_stretchesO k l : (S k < n)%nat -> In l (stretchesO pl cs k) -> In l (openParts pl cs).
Proof. intros Hk H. unfold openParts. fold n. apply in_or_app. right. apply in_flat_map. exists k. split; [apply in_seq; lia|auto]. Qed.

(** the nearest segment with cuts among those before k *)
Lemma prev_cut k : (forall j, (j < k)%nat -> sortedCuts pl cs j = []) \/ exists j, (j < k)%nat /\ sortedCuts pl cs j <> [] /\ forall e, (j < e < k)%nat -> sortedCuts pl cs e = [].
Proof.
  induction k as [|k [IH|(j & Hj & Nj & IH)]]; [left; intros; lia| |].
  - destruct (sortedCuts pl cs k) as [|c l] eqn:E.
    + left. intros j Hj. destruct (Nat.eq_dec j k) as [->|]; [auto|apply IH; lia].
    + right. exists k. split; [lia|]. split; [rewrite E; discriminate|]. intros; lia.
  - right. destruct (sortedCuts pl cs k) as [|c l] eqn:E.
    + exists j. split; [lia|]. split; [auto|]. intros e He. destruct (Nat.eq_dec e k) as [->|]; [auto|apply IH; lia].
    + exists k. split; [lia|]. split; [rewrite E; discriminate|]. intros; lia.
Qed.

(** every point of the polyline is on a part *)
Theorem open_cover k t : (S k < n)%nat -> 0 <= t <= 1 -> exists l, In l (openParts pl cs) /\ onPath (mkPline false l) (seg pl k t).
Proof.
  intros Hk Ht01. destruct (Classical_Prop.classic (exists a, In (k, mkSP (seg pl k a) false) cs /\ 0 <= a < t)) as [(a0 & Ha0 & Hat)|No].
  - destruct (cut_paramsO k Hk) as (ts & Es & Hs & Ht). assert (Hin : In a0 ts) by (apply (param_in k); auto; [intros; now apply Ht|lra]). destruct ts as [|a ts]; [destruct Hin|].
    destruct (Ht a (or_introl eq_refl)) as [Ha01 Ha]. destruct (first_contO k a Ha Ha01) as (Ca & _). cbv zeta in Ca.
    assert (Laa : a <= a0). { apply StronglySorted_inv in Hs. destruct Hs as [_ F]. rewrite List.Forall_forall in F. destruct Hin as [<-|I0]; [lra|auto]. }
    destruct (Rle_lt_dec t (last ts a)) as [L|L].
    + destruct (between_coversO k Hk ts a _ t Ca Ha Hs (fun u H => Ht u (or_intror H)) ltac:(lra) ltac:(lra)) as (l & Hl & Ol).
      exists l. split; [|auto]. apply (in_stretchesO k); [auto|]. unfold stretchesO. rewrite Es. cbn [map]. apply in_or_app. left. exact Hl.
    + assert (Hk2 : (S (S k) < n)%nat).
      { destruct (Nat.eq_dec (S (S k)) n) as [E|]; [|lia]. exfalso. destruct nonempty_end as (te & Ee & _ & Hte & I1). replace (n - 2)%nat with k in * by lia.
        assert (In 1 (a :: ts)) as I1'. { apply (param_in k); auto; [intros; now apply Ht|lra|now apply Hte]. } pose proof (last_le ts a 1 Hs I1'). lra. }
      destruct (onward_run k a ts Hk2 Es Ht) as (d & b & ts' & l & Hd & Hkd & Hno & Es' & Hs' & Ht' & Eo & R).
      exists l. split.
      * apply (in_stretchesO k); [auto|]. unfold stretchesO. rewrite Es. cbn [map]. apply in_or_app. right. fold n. destruct (Nat.eqb_spec (S (S k)) n); [lia|].
        rewrite (last_map (fun t => mkSP (seg pl k t) false) ts a), Eo. now left.
      * apply (run_onRun pl k _ d b l _ Hn R). destruct d as [|d']; [lia|]. left. exists t. split; [lra|reflexivity].
  - assert (Hfst : forall b ts', sortedCuts pl cs k = map (fun t => mkSP (seg pl k t) false) (b :: ts') -> (forall t, In t (b :: ts') -> 0 <= t <= 1 /\ In (k, mkSP (seg pl k t) false) cs) -> t <= b).
    { intros b ts' Es Ht. destruct (Ht b (or_introl eq_refl)) as [Hb01 Hb]. apply Rnot_lt_le. intros L. apply No. exists b. split; [auto|lra]. }
    destruct (prev_cut k) as [Hall|(j & Hj & Nj & Hall)].
    + destruct first_run as (d & b & ts' & l & Hd & Hno & Es & Hs & Ht & Ef & _ & R). exists l. split; [unfold openParts; rewrite Ef; now left|].
      apply (run_onRun pl 0 0 d b l _ Hn R).
      assert (Hdk : (k <= d)%nat). { destruct (le_lt_dec k d); [auto|]. rewrite (Hall d) in Es by lia. discriminate. }
      destruct (Nat.eq_dec d k) as [->|Nd].
      * specialize (Hfst b ts' Es Ht). destruct k as [|k']; cbn [onRun plus]; [exists t; split; [lra|reflexivity]|]. right. right. exists t. split; [lra|reflexivity].
      * destruct d as [|d']; [lia|]. cbn [onRun plus]. destruct k as [|k']; [left; exists t; split; [lra|reflexivity]|]. right. left. exists (S k'), t. split; [lia|]. split; [auto|reflexivity].
    + destruct (cut_paramsO j ltac:(lia)) as (ts & Es & Hs & Ht). destruct ts as [|a ts]; [rewrite Es in Nj; now elim Nj|].
      destruct (onward_run j a ts ltac:(lia) Es Ht) as (d & b & ts' & l & Hd & Hkd & Hno & Es' & Hs' & Ht' & Eo & R).
      exists l. split.
      * apply (in_stretchesO j); [lia|]. unfold stretchesO. rewrite Es. cbn [map]. apply in_or_app. right. fold n. destruct (Nat.eqb_spec (S (S j)) n); [lia|].
        rewrite (last_map (fun t => mkSP (seg pl j t) false) ts a), Eo. now left.
      * apply (run_onRun pl j _ d b l _ Hn R).
        assert (Hdk : (k <= j + d)%nat). { destruct (le_lt_dec k (j + d)); [auto|]. rewrite (Hall (j + d)%nat) in Es' by lia. discriminate. }
        destruct d as [|d']; [lia|]. cbn [onRun]. right. destruct (Nat.eq_dec (j + S d') k) as [E|Nd].
        -- right. rewrite E in *. specialize (Hfst b ts' Es' Ht'). exists t. split; [lra|reflexivity].
        -- left. exists (k - j)%nat, t. replace (j + (k - j))%nat with k by lia. split; [lia|]. split; [auto|reflexivity].
Qed.

Lemma seg_at_open k : (S k < n)%nat -> vert pl k 0 = at_ pl k /\ vert pl k 1 = at_ pl (S k) /\ nextI pl k = S k /\ In (vert pl k 0, vert pl k 1) (pathSegs pl).
Proof.
  intros Hk. assert (E0 : vert pl k 0 = at_ pl k) by (unfold vert; fold n; rewrite Nat.add_0_r, Nat.mod_small by lia; reflexivity).
  assert (E1 : vert pl k 1 = at_ pl (S k)) by (unfold vert; fold n; rewrite Nat.add_1_r, Nat.mod_small by lia; reflexivity).
  assert (E2 : nextI pl k = S k). { unfold nextI, nextWrappingIndex. fold n. destruct (Nat.eqb_spec (S k) n); [lia|auto]. }
  split; [auto|]. split; [auto|]. split; [auto|]. apply (Permutation_in _ (vsegs_perm pl)). unfold vsegs. apply in_map_iff. exists (k, S k). cbn [fst snd]. rewrite E0, E1. split; [auto|].
  apply segs_iff. rewrite segCount_eq, Hop, E2 by auto. fold n. lia.
Qed.

Lemma on_open q : onPath pl q <-> exists k t, (S k < n)%nat /\ 0 <= t <= 1 /\ q = seg pl k t.
Proof.
  split.
  - intros (v1 & v2 & Hin & O). pose proof (Permutation_in _ (Permutation_sym (vsegs_perm pl)) Hin) as Hvs. unfold vsegs in Hvs. apply in_map_iff in Hvs.
    destruct Hvs as ([i j] & Eij & Hij). cbn [fst snd] in Eij. injection Eij as <- <-. apply segs_iff in Hij. destruct Hij as (_ & Hi & ->). rewrite segCount_eq, Hop in Hi by auto. fold n in Hi.
    destruct (seg_at_open i ltac:(lia)) as (E0 & E1 & E2 & _). rewrite E2, <- E0, <- E1 in O. apply onSeg_path in O. destruct O as (t & Ht & ->). exists i, t. split; [lia|]. split; [auto|reflexivity].
  - intros (k & t & Hk & Ht & ->). destruct (seg_at_open k Hk) as (_ & _ & _ & Hin). exists (vert pl k 0), (vert pl k 1). split; [auto|]. apply onSeg_path. exists t. auto.
Qed.

Theorem open_cut : cutOpen pl X (openParts pl cs).
Proof. split; [apply open_part|]. intros q Hq. apply on_open in Hq. destruct Hq as (k & t & Hk & Ht & ->). now apply open_cover. Qed.
End Open.
