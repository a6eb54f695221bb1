(** * The stretches of a polyline between its cuts, as parts of the polyline *)
From Coq Require Import ZArith Reals Lra Lia Psatz List Bool Arith Permutation Sorted.
From Coquelicot Require Import Coquelicot.
From Verif Require Import Base Num MathUtils PlineSegment SpatialIndex Polyline Intersects Combine StdLaws RGeom Spec PropsMath ArcGeom Polar PropsSegment PropsClosest PropsIntr PropsPlineIntr PropsPolyline PropsWinding PropsRegion PropsCoincident PropsSlices PropsPieces.
Import ListNotations.
Open Scope R_scope.

(** ** Specification *)
(** the point at fraction t of segment k (counted around) *)
Definition seg (pl : polyline) (k : nat) (t : R) : vec := segPath (vert pl k 0) (vert pl k 1) t.

(** [l] runs from fraction a of segment k to fraction b of segment k + d *)
Definition run (pl : polyline) (k : nat) (a : R) (d : nat) (b : R) (l : list vertex) : Prop :=
  0 <= a <= 1 /\ 0 <= b <= 1 /\
  match d with
  | O => exists u w, l = [u; w] /\ a < b /\ piece (vert pl k 0) (vert pl k 1) a b u w /\ Rabs (bulge u) <= 1
  | S d' => exists w us e, l = [w] ++ map (vert pl k) (seq 1 d') ++ [us; e] /\ a < 1 /\ 0 < b /\
      piece (vert pl k 0) (vert pl k 1) a 1 w (vert pl k 1) /\ Rabs (bulge w) <= 1 /\
      piece (vert pl k d) (vert pl k (S d)) 0 b us e /\ Rabs (bulge us) <= 1 /\ pos us = pos (vert pl k d)
  end.

(** the points of [X] are met by the run at most at its ends *)
Definition clearOf (pl : polyline) (X : vec -> Prop) (k : nat) (a : R) (d : nat) (b : R) : Prop :=
  match d with
  | O => forall t, a < t < b -> ~ X (seg pl k t)
  | S d' => (forall t, a < t <= 1 -> ~ X (seg pl k t)) /\
            (forall e t, (1 <= e <= d')%nat -> 0 <= t <= 1 -> ~ X (seg pl (k + e) t)) /\
            (forall t, 0 <= t < b -> ~ X (seg pl (k + d) t))
  end.

(** [other] meets the run at most at its ends *)
Definition clear (pl other : polyline) (k : nat) (a : R) (d : nat) (b : R) : Prop := clearOf pl (onPath other) k a d b.

Section Trace.
Context {SL : StdLib} {SLaws : StdLaws SL}.
Context (pl : polyline) (X : vec -> Prop) (cs : list (nat * slicePoint)).
Let n := length (vertexes pl).
Hypothesis (Hn : (2 <= n)%nat) (Hsmall : smallBulges pl) (Hsep : sep pl cs).
Hypothesis Hcut : forall k c, In (k, c) cs -> (k < n)%nat /\ spStart c = false /\
  exists t, 0 <= t <= 1 /\ spPos c = seg pl k t /\
    longArc (vert pl k 0) (vert pl k 1) (pos (vert pl k 0)) (spPos c) /\ longArc (vert pl k 0) (vert pl k 1) (spPos c) (pos (vert pl k 1)).
Hypothesis Hpair : forall k c c', In (k, c) cs -> In (k, c') cs -> spPos c = spPos c' \/ (far (spPos c) (spPos c') /\ longArc (vert pl k 0) (vert pl k 1) (spPos c) (spPos c')).
Hypothesis Hcomplete : forall k q, (k < n)%nat -> onSeg (vert pl k 0) (vert pl k 1) q -> X q -> In (k, mkSP q false) cs.

Lemma vert_in k d : In (vert pl k d) (vertexes pl).
Proof. unfold vert, at_. apply nth_In. apply Nat.mod_upper_bound. fold n. lia. Qed.

Lemma vert_small k d : Rabs (bulge (vert pl k d)) <= 1.
Proof. unfold smallBulges in Hsmall. rewrite List.Forall_forall in Hsmall. apply Hsmall, vert_in. Qed.

Lemma vert_far k d : far (pos (vert pl k d)) (pos (vert pl k (S d))).
Proof.
  apply far_fuzzy. destruct Hsep as [S1 _]. unfold vert. fold n. rewrite <- prec_R. specialize (S1 ((k + d) mod n)). fold n in S1. unfold nextV in S1. fold n in S1.
  rewrite next_mod in S1 by lia. replace (k + S d)%nat with (S (k + d)) by lia. apply S1. apply Nat.mod_upper_bound. lia.
Qed.

Lemma vert_shift k e d : vert pl (k + e) d = vert pl k (e + d).
Proof. unfold vert. now rewrite Nat.add_assoc. Qed.

Lemma vert_mod k d : vert pl (k mod n) d = vert pl k d.
Proof. unfold vert. fold n. rewrite Nat.add_mod_idemp_l by lia. reflexivity. Qed.

Lemma seg_mod k t : seg pl (k mod n) t = seg pl k t.
Proof. unfold seg. now rewrite !vert_mod. Qed.

Lemma cut_far k c i : In (k, c) cs -> (i < n)%nat -> far (spPos c) (pos (at_ pl i)).
Proof. intros Hin Hi. apply far_fuzzy. rewrite <- prec_R. apply (proj2 Hsep k c i Hin Hi). Qed.

Lemma cut_far_vert k c j d : In (k, c) cs -> far (spPos c) (pos (vert pl j d)).
Proof. intros Hin. apply (cut_far k c); [auto|]. apply Nat.mod_upper_bound. fold n. lia. Qed.

(** the cuts of segment k as a sorted list of fractions *)
Lemma cut_params k : exists ts, sortedCuts pl cs k = map (fun t => mkSP (seg pl k t) false) ts /\ StronglySorted Rle ts /\
  (forall t, In t ts -> 0 <= t <= 1 /\ In (k, mkSP (seg pl k t) false) cs).
Proof.
  destruct (C33_sorted pl cs k) as [_ S]. assert (In' : forall c, In c (sortedCuts pl cs k) -> In (k, c) cs) by (intros c; apply sortedCuts_In).
  induction (sortedCuts pl cs k) as [|c l IH].
  - exists []. split; [reflexivity|]. split; [constructor|]. intros t [].
  - apply StronglySorted_inv in S. destruct S as [S F]. destruct IH as (ts & -> & St & Ht); [auto|intros; apply In'; now right|].
    pose proof (In' c (or_introl eq_refl)) as Hc. destruct (Hcut k c Hc) as (Hk & Hst & t & Ht01 & Ep & _).
    assert (Ec : c = mkSP (seg pl k t) false). { clear - Hst Ep. destruct c as [p b]. cbn [spPos spStart] in *. subst. reflexivity. }
    exists (t :: ts). cbn [map]. rewrite <- Ec. split; [reflexivity|]. split.
    + constructor; [auto|]. apply List.Forall_forall. intros t' Hin'. rewrite List.Forall_forall in F.
      specialize (F (mkSP (seg pl k t') false) (in_map _ _ _ Hin')). cbn beta in F. rewrite Ec in F. cbn [spPos] in F.
      destruct (Ht t' Hin') as [Ht' _]. apply (start_dist_le (vert pl k 0) (vert pl k 1)); [apply vert_small|apply far_ne, vert_far|auto|auto|].
      unfold seg in F. replace (at_ pl k) with (vert pl k 0) in F by (unfold vert; fold n; now rewrite Nat.add_0_r, Nat.mod_small). exact F.
    + intros t' [<-|Hin']; [|auto]. rewrite <- Ec. auto.
Qed.

(** a fraction at which a point of [X] is met is one of them *)
Lemma meets_param k ts : (k < n)%nat -> sortedCuts pl cs k = map (fun t => mkSP (seg pl k t) false) ts -> (forall t, In t ts -> 0 <= t <= 1) ->
  forall t, 0 <= t <= 1 -> X (seg pl k t) -> In t ts.
Proof.
  intros Hk Es Hts t Ht O. assert (Hin : In (k, mkSP (seg pl k t) false) cs). { apply Hcomplete; auto. apply onSeg_path. exists t. auto. }
  apply (sortedCuts_In pl) in Hin. rewrite Es in Hin. apply in_map_iff in Hin. destruct Hin as (t' & E & Hin). injection E as E.
  assert (E2 : t' = t) by (apply (segPath_inj (vert pl k 0) (vert pl k 1)); [apply vert_small|apply far_ne, vert_far|apply Hts; auto|auto|exact E]). now subst.
Qed.

(** the state while walking along the cuts of segment k: [w] continues the segment from fraction a *)
Definition cont (k : nat) (a : R) (w : vertex) : Prop :=
  0 <= a < 1 /\ piece (vert pl k 0) (vert pl k 1) a 1 w (vert pl k 1) /\ Rabs (bulge w) <= 1 /\ (isLine w <-> isLine (vert pl k 0)) /\
  (~ isLine (vert pl k 0) -> radOf w (vert pl k 1) = radOf (vert pl k 0) (vert pl k 1)).

Lemma param_lt k t : 0 <= t <= 1 -> In (k, mkSP (seg pl k t) false) cs -> 0 < t < 1.
Proof.
  intros Ht Hin. pose proof (cut_far_vert _ _ k 0 Hin) as F0. pose proof (cut_far_vert _ _ k 1 Hin) as F1. cbn [spPos] in F0, F1. unfold seg in F0, F1.
  apply far_ne in F0, F1. split; apply Rnot_le_lt; intros L.
  - apply F0. replace t with 0 by lra. apply segPath_0.
  - apply F1. replace t with 1 by lra. apply segPath_1.
Qed.

Lemma first_cont k t : In (k, mkSP (seg pl k t) false) cs -> 0 <= t <= 1 ->
  let s := splitAtPoint (vert pl k 0) (vert pl k 1) (seg pl k t) in
  cont k t (splitVertex s) /\ piece (vert pl k 0) (vert pl k 1) 0 t (updatedStart s) (splitVertex s) /\ Rabs (bulge (updatedStart s)) <= 1 /\
  pos (updatedStart s) = pos (vert pl k 0) /\ pos (splitVertex s) = seg pl k t.
Proof.
  intros Hin Ht s. destruct (Hcut _ _ Hin) as (_ & _ & t' & Ht' & E & L1 & L2). cbn [spPos] in E, L1, L2.
  pose proof (cut_far_vert _ _ k 0 Hin) as F0. pose proof (cut_far_vert _ _ k 1 Hin) as F1. cbn [spPos] in F0, F1.
  destruct (split_piece (vert pl k 0) (vert pl k 1) t (vert_small k 0) (vert_far k 0) Ht) as (P1 & P2 & P3 & P4 & P5 & P6 & P7 & P8 & _); auto.
  { right. split; [apply far_sym; exact F0|exact L1]. }
  split; [|auto]. split; [pose proof (param_lt k t Ht Hin); lra|]. auto.
Qed.

Lemma next_cont k a b w : cont k a w -> a <= b <= 1 -> In (k, mkSP (seg pl k b) false) cs -> In (k, mkSP (seg pl k a) false) cs ->
  let s := splitAtPoint w (vert pl k 1) (seg pl k b) in
  cont k b (splitVertex s) /\ piece (vert pl k 0) (vert pl k 1) a b (updatedStart s) (splitVertex s) /\ Rabs (bulge (updatedStart s)) <= 1 /\
  pos (updatedStart s) = seg pl k a /\ pos (splitVertex s) = seg pl k b.
Proof.
  intros (Ha & Pw & Bw & Lw & Rw) Hab Hb Hina s. destruct (Hcut _ _ Hb) as (_ & _ & t' & _ & _ & _ & L2). cbn [spPos] in L2.
  pose proof (param_lt k b ltac:(lra) Hb) as Hb1.
  set (x := (b - a) / (1 - a)). assert (Hx : 0 <= x <= 1).
  { unfold x. split; [apply Rmult_le_pos; [lra|apply Rlt_le, Rinv_0_lt_compat; lra]|]. apply (Rmult_le_reg_r (1 - a)); [lra|]. unfold Rdiv. rewrite Rmult_assoc, Rinv_l by lra. lra. }
  assert (Ex : a + x * (1 - a) = b) by (unfold x; field; lra).
  assert (Eb : segPath w (vert pl k 1) x = seg pl k b) by (rewrite (Pw x), Ex; reflexivity).
  assert (Epw : pos w = seg pl k a) by (apply (piece_start _ _ _ _ _ _ Pw)).
  pose proof (cut_far_vert _ _ k 1 Hina) as Fa. pose proof (cut_far_vert _ _ k 1 Hb) as Fb. cbn [spPos] in Fa, Fb.
  destruct (split_piece w (vert pl k 1) x Bw) as (P1 & P2 & P3 & P4 & P5 & P6 & P7 & P8 & _); auto.
  - rewrite Epw. exact Fa.
  - rewrite Eb, Epw. destruct (Hpair _ _ _ Hina Hb) as [E|[F L]]; cbn [spPos] in *; [auto|]. right. split; [auto|]. intros N. rewrite Rw by tauto. apply L. tauto.
  - rewrite Eb. exact Fb.
  - rewrite Eb. intros N. rewrite Rw by tauto. apply L2. tauto.
  - rewrite Eb in *. fold s in P1, P2, P3, P4, P5, P6, P7, P8. split; [|split; [|split; [|split]]]; auto.
    + split; [lra|]. split; [|split; [auto|split; [tauto|]]].
      * pose proof (piece_comp _ _ _ _ _ _ _ _ _ _ Pw P4) as H. rewrite Ex in H. replace (a + 1 * (1 - a)) with 1 in H by ring. exact H.
      * intros N. rewrite P8 by tauto. auto.
    + pose proof (piece_comp _ _ _ _ _ _ _ _ _ _ Pw P3) as H. rewrite Ex in H. replace (a + 0 * (1 - a)) with a in H by ring. exact H.
    + congruence.
Qed.

(** stretches within one segment *)
Lemma between_runs k : forall ts a w, cont k a w -> In (k, mkSP (seg pl k a) false) cs ->
  StronglySorted Rle (a :: ts) -> (forall t, In t ts -> 0 <= t <= 1 /\ In (k, mkSP (seg pl k t) false) cs) ->
  forall l, In l (between (vert pl k 1) w (mkSP (seg pl k a) false) (map (fun t => mkSP (seg pl k t) false) ts)) ->
  exists a' b', In a' (a :: ts) /\ In b' (a :: ts) /\ run pl k a' 0 b' l /\ (forall t, In t (a :: ts) -> t <= a' \/ b' <= t) /\
    (exists u w, l = [u; w] /\ far (pos u) (pos w)).
Proof.
  induction ts as [|b ts IH]; intros a w Hw Ha Hs Ht l Hl; [destruct Hl|]. cbn [map between] in Hl. apply StronglySorted_inv in Hs. destruct Hs as [Hs Hf].
  destruct (Ht b (or_introl eq_refl)) as [Hb01 Hb]. assert (Hab : a <= b) by (rewrite List.Forall_forall in Hf; apply Hf; now left).
  destruct (next_cont k a b w Hw ltac:(lra) Hb Ha) as (Cb & Pb & Bb & E1 & E2). cbv zeta in *. cbn [spPos spStart orb] in Hl. set (s := splitAtPoint w (vert pl k 1) (seg pl k b)) in *.
  apply in_app_or in Hl. destruct Hl as [Hl|Hl].
  - rewrite E1, E2, prec_R in Hl. destruct (fuzzyEqual (seg pl k a) (seg pl k b) (1 / 100000)) eqn:Ef; [destruct Hl|]. destruct Hl as [<-|[]].
    assert (a <> b) as Nab. { intros ->. apply far_fuzzy, far_ne in Ef. now apply Ef. }
    exists a, b. split; [now left|]. split; [right; now left|]. split; [|split].
    + split; [destruct Hw; lra|]. split; [auto|]. exists (updatedStart s), (splitVertex s). repeat split; auto. lra.
    + intros t [<-|[<-|Hin]]; [left; lra|right; lra|]. right. apply StronglySorted_inv in Hs. destruct Hs as [_ Hs]. rewrite List.Forall_forall in Hs. auto.
    + exists (updatedStart s), (splitVertex s). split; [auto|]. rewrite E1, E2. now apply far_fuzzy.
  - destruct (IH b (splitVertex s) Cb Hb Hs (fun t H => Ht t (or_intror H)) l Hl) as (a' & b' & I1 & I2 & R & G & O).
    exists a', b'. split; [now right|]. split; [now right|]. split; [auto|]. split; [|auto]. intros t [<-|Hin]; [|auto].
    left. rewrite List.Forall_forall in Hf. apply Hf. exact I1.
Qed.

Lemma last_le ts a t : StronglySorted Rle (a :: ts) -> In t (a :: ts) -> t <= last ts a.
Proof.
  revert a t. induction ts as [|b ts IH]; intros a t Hs Hin; [destruct Hin as [<-|[]]; cbn; lra|].
  assert (E : last (b :: ts) a = last ts b). { clear. destruct ts as [|c l]; [reflexivity|]. change (last (b :: c :: l) a) with (last (c :: l) a). revert c. induction l as [|d l IH]; intros c; [reflexivity|apply (IH d)]. }
  rewrite E. apply StronglySorted_inv in Hs. destruct Hs as [Hs Hf]. destruct Hin as [<-|Hin]; [|apply IH; auto].
  rewrite List.Forall_forall in Hf. apply Rle_trans with b; [apply Hf; now left|apply IH; [auto|now left]].
Qed.

Lemma last_In {A} (a : A) ts : In (last ts a) (a :: ts).
Proof. revert a. induction ts as [|b ts IH]; intros a; [now left|]. destruct ts as [|c ts]; [right; now left|]. destruct (IH a) as [E|E]; [left; exact E|right; right; exact E]. Qed.

Lemma last_map {A B} (f : A -> B) ts a : last (map f ts) (f a) = f (last ts a).
Proof. induction ts as [|b ts IH]; [reflexivity|]. destruct ts as [|c ts]; [reflexivity|]. exact IH. Qed.

(** every stretch is a run between two cuts that meets [X] at most at its ends *)
Theorem stretch_runX k l : (k < n)%nat -> In l (stretches pl cs k) -> exists a d b, run pl k a d b l /\ (d <= n)%nat /\
  In (k, mkSP (seg pl k a) false) cs /\ In (((k + d) mod n)%nat, mkSP (seg pl (k + d) b) false) cs /\ clearOf pl X k a d b.
Proof.
  intros Hk Hl. unfold stretches in Hl. destruct (cut_params k) as (ts & Es & Hs & Ht). rewrite Es in Hl. destruct ts as [|a ts]; [destruct Hl|]. cbn [map] in Hl.
  assert (Hts : forall t, In t (a :: ts) -> 0 <= t <= 1) by (intros t H; apply Ht, H).
  destruct (Ht a (or_introl eq_refl)) as [Ha01 Ha]. destruct (first_cont k a Ha Ha01) as (Ca & _). cbv zeta in Ca. cbn [spPos] in Hl.
  apply in_app_or in Hl. destruct Hl as [Hl|Hl].
  - destruct (between_runs k ts a _ Ca Ha Hs (fun t H => Ht t (or_intror H)) l Hl) as (a' & b' & I1 & I2 & R & G & _).
    exists a', 0%nat, b'. split; [auto|]. split; [lia|]. split; [apply Ht, I1|]. split; [rewrite Nat.add_0_r, Nat.mod_small by auto; apply Ht, I2|].
    intros t Htt O. destruct R as ((? & ?) & (? & ?) & _). destruct (G t); [|lra|lra]. apply (meets_param k (a :: ts)); auto. lra.
  - rewrite (last_map (fun t => mkSP (seg pl k t) false) ts a) in Hl. set (z := last ts a) in *.
    assert (Hz : In z (a :: ts)) by apply last_In. destruct (Ht z Hz) as [Hz01 Hzc]. destruct (first_cont k z Hzc Hz01) as (Cz & _). cbv zeta in Cz.
    unfold onward in Hl. cbn [spStart spPos] in Hl. fold n in Hl.
    set (P := fun d => match sortedCuts pl cs ((k + d) mod n) with [] => false | _ :: _ => true end) in Hl.
    destruct (find P (seq 1 n)) as [d|] eqn:Ef; [|destruct Hl].
    assert (Hfirst : (1 <= d <= n)%nat /\ P d = true /\ forall e, (1 <= e < d)%nat -> P e = false).
    { revert Ef. clear. intros Ef. pose proof (find_some _ _ Ef) as [H1 H2]. apply in_seq in H1. split; [lia|]. split; [auto|].
      assert (G : forall len st, find P (seq st len) = Some d -> forall e, (st <= e < d)%nat -> P e = false).
      { induction len as [|len IH]; intros st H e He; [discriminate|]. cbn [seq find] in H. destruct (P st) eqn:Eps; [injection H as <-; lia|].
        destruct (Nat.eq_dec e st) as [->|]; [auto|]. apply (IH (S st)); [auto|lia]. }
      apply (G n 1%nat Ef). }
    destruct Hfirst as (Hd & HPd & Hno). unfold P in HPd. set (k' := ((k + d) mod n)%nat) in *. assert (Hk' : (k' < n)%nat) by (apply Nat.mod_upper_bound; lia).
    destruct (cut_params k') as (ts' & Es' & Hs' & Ht'). rewrite Es' in Hl, HPd. destruct ts' as [|b ts']; [discriminate|]. cbn [map] in Hl.
    destruct Hl as [<-|[]]. cbn [spPos]. destruct (Ht' b (or_introl eq_refl)) as [Hb01 Hb]. destruct (first_cont k' b Hb Hb01) as (_ & Pb & Bb & Eb1 & Eb2). cbv zeta in Pb, Bb, Eb1, Eb2.
    assert (Ev0 : vert pl k' 0 = vert pl k d) by (unfold k'; rewrite vert_mod, vert_shift, Nat.add_0_r; reflexivity).
    assert (Ev1 : vert pl k' 1 = vert pl k (S d)) by (unfold k'; rewrite vert_mod, vert_shift, Nat.add_1_r; reflexivity).
    rewrite Ev0, Ev1 in Pb, Bb, Eb1, Eb2. pose proof (param_lt k z Hz01 Hzc) as Lz. pose proof (param_lt k' b Hb01 Hb) as Lb.
    assert (Eseg : seg pl (k + d) b = seg pl k' b) by (symmetry; apply seg_mod).
    destruct d as [|d']; [lia|]. replace (S d' - 1)%nat with d' by lia.
    exists z, (S d'), b. split; [|split; [lia|split; [exact Hzc|split; [rewrite Eseg; exact Hb|]]]].
    + split; [lra|]. split; [lra|]. destruct Cz as (_ & Pz & Bz & _). do 3 eexists. split; [reflexivity|]. split; [lra|]. split; [lra|]. split; [exact Pz|]. split; [exact Bz|].
      split; [|split; [exact Bb|exact Eb1]]. intros s. rewrite <- (Pb s). apply segPath_end. cbn [pos]. symmetry. exact Eb2.
    + split; [|split].
      * intros t Htt O. assert (In t (a :: ts)) as Hin by (apply (meets_param k (a :: ts)); auto; lra). pose proof (last_le ts a t Hs Hin). fold z in H. lra.
      * intros e t He Htt O. pose proof (Hno e ltac:(lia)) as Hn0. unfold P in Hn0. destruct (sortedCuts pl cs ((k + e) mod n)) eqn:Ec; [|discriminate].
        assert (Hke : ((k + e) mod n < n)%nat) by (apply Nat.mod_upper_bound; lia). rewrite <- seg_mod in O.
        destruct (cut_params ((k + e) mod n)) as (te & Ee & _ & Hte). destruct te; [|rewrite Ec in Ee; discriminate].
        destruct (meets_param _ [] Hke Ee (fun t H => proj1 (Hte t H)) t Htt O).
      * intros t Htt O. rewrite <- seg_mod in O. fold k' in O. assert (In t (b :: ts')) as Hin by (apply (meets_param k' (b :: ts') Hk' Es'); [intros; now apply Ht'|lra|auto]).
        apply StronglySorted_inv in Hs'. destruct Hs' as [_ Hs']. destruct Hin as [<-|Hin]; [lra|]. rewrite List.Forall_forall in Hs'. specialize (Hs' t Hin). lra.
Qed.

(** ** The points of a run *)
Lemma seg_onPath k t : isClosed pl = true -> 0 <= t <= 1 -> onPath pl (seg pl k t).
Proof.
  intros Hc Ht. exists (vert pl k 0), (vert pl k 1). split; [|apply onSeg_path; exists t; auto].
  apply (Permutation_in _ (vsegs_perm pl)). unfold vsegs. apply in_map_iff. exists ((k mod n)%nat, (S k mod n)%nat). cbn [fst snd]. split.
  { unfold vert. fold n. now rewrite Nat.add_0_r, Nat.add_1_r. }
  apply C21_indices. fold n. pose proof (Nat.mod_upper_bound k n ltac:(lia)) as Hb. rewrite <- next_mod by lia. unfold nextWrappingIndex.
  destruct (Nat.eqb_spec (S (k mod n)) n); (split; [auto|split; [auto|split; [lia|]]]); [right; split; [auto|lia]|left; lia].
Qed.

Context (other : polyline).
Lemma between_const (w : polyline) v1 v2 s t : smallBulges w -> s <= t -> (forall x, s <= x <= t -> ~ onPath w (segPath v1 v2 x)) ->
  getWindingNumber w (segPath v1 v2 s) = getWindingNumber w (segPath v1 v2 t).
Proof.
  intros Hw Hst Ho. apply C47_constant_along_paths; [auto|]. exists (fun u => segPath v1 v2 (s + u * (t - s))). split; [split; [|split]|].
  - f_equal. ring. - f_equal. ring.
  - intros u _. destruct (seg_continuous v1 v2 (s + u * (t - s))) as [CX CY].
    assert (Cm : continuous (fun u => s + u * (t - s)) u). { apply (ex_derive_continuous (V := R_NormedModule)). auto_derive. auto. }
    split; [apply (continuous_comp (fun u => s + u * (t - s)) (fun u => vx (segPath v1 v2 u)))|apply (continuous_comp (fun u => s + u * (t - s)) (fun u => vy (segPath v1 v2 u)))]; auto.
  - intros u Hu. apply Ho. nra.
Qed.

(** the fraction of the run at which it is tested: the midpoint of its last piece *)
Definition runMid (k : nat) (a : R) (d : nat) (b : R) : vec :=
  match d with O => seg pl k ((a + b) / 2) | S _ => seg pl (k + d) (b / 2) end.

Lemma run_accepted k a d b l pred : run pl k a d b l -> accepted pred l = true -> pred (runMid k a d b) = true.
Proof.
  intros (Ha & Hb & R) H. destruct d as [|d'].
  - destruct R as (u & w & -> & Hab & P & Bu). cbn [accepted rev app] in H. unfold accepted in H. cbn [rev app] in H.
    assert (Ne : pos u <> pos w). { rewrite (piece_start _ _ _ _ _ _ P), (piece_end _ _ _ _ _ _ P). intros E. apply segPath_inj in E; [lra|apply vert_small|apply far_ne, vert_far|auto|auto]. }
    rewrite (segPath_unique _ _ _ _ (C16_segMidpoint u w Bu (fun _ => Ne))) in H. rewrite (P (1 / 2)) in H. unfold runMid, seg. replace ((a + b) / 2) with (a + 1 / 2 * (b - a)) by field. exact H.
  - destruct R as (w & us & e & -> & Ha1 & Hb0 & Pw & Bw & P & Bu & Eu). rewrite app_assoc in H. rewrite accepted_snoc in H.
    assert (Ne : pos us <> pos e). { rewrite (piece_start _ _ _ _ _ _ P), (piece_end _ _ _ _ _ _ P). intros E. apply segPath_inj in E; [lra|apply vert_small|apply far_ne, vert_far|lra|lra]. }
    rewrite (segPath_unique _ _ _ _ (C16_segMidpoint us e Bu (fun _ => Ne))) in H. rewrite (P (1 / 2)) in H. unfold runMid, seg. rewrite !vert_shift, Nat.add_0_r, Nat.add_1_r. replace (b / 2) with (0 + 1 / 2 * (b - 0)) by field. exact H.
Qed.

Lemma openSegs_snoc2 v0 vs x y : openSegs v0 (vs ++ [x; y]) = openSegs v0 (vs ++ [x]) ++ [(x, y)].
Proof. revert v0. induction vs as [|v vs IH]; intros v0; [reflexivity|]. cbn [app openSegs]. now rewrite IH. Qed.

Lemma openSegs_verts k d : forall i w z, pos z = pos (vert pl k (i + d)) -> forall x y, In (x, y) (openSegs w (map (vert pl k) (seq i d) ++ [z])) ->
  (x = w /\ pos y = pos (vert pl k i)) \/ exists j, (i <= j < i + d)%nat /\ x = vert pl k j /\ pos y = pos (vert pl k (S j)).
Proof.
  induction d as [|d IH]; intros i w z Ez x y Hin.
  - cbn [seq map app openSegs] in Hin. destruct Hin as [E|[]]. injection E as <- <-. left. rewrite Nat.add_0_r in Ez. auto.
  - cbn [seq map app openSegs] in Hin. destruct Hin as [E|Hin]; [injection E as <- <-; now left|].
    replace (i + S d)%nat with (S i + d)%nat in Ez by lia. destruct (IH (S i) (vert pl k i) z Ez x y Hin) as [[-> E]|(j & Hj & -> & E)]; right; [exists i|exists j]; (split; [lia|auto]).
Qed.

(** every point of a run is on the polyline, and is either on [other] or on the same side of [other] as the tested midpoint *)
Theorem run_points k a d b l q : isClosed pl = true -> smallBulges other -> run pl k a d b l -> clear pl other k a d b -> onPath (mkPline false l) q ->
  onPath pl q /\ (onPath other q \/ getWindingNumber other q = getWindingNumber other (runMid k a d b)).
Proof.
  intros Hc Ho (Ha & Hb & R) C (x & y & Hin & O). unfold pathSegs in Hin. cbn [vertexes isClosed] in Hin. destruct d as [|d'].
  - destruct R as (u & w & -> & Hab & P & _). cbn in Hin. destruct Hin as [E|[]]. injection E as <- <-. apply onSeg_path in O. destruct O as (t & Ht & ->). rewrite (P t). fold (seg pl k (a + t * (b - a))).
    split; [apply seg_onPath; [auto|nra]|]. destruct (Classical_Prop.classic (onPath other (seg pl k (a + t * (b - a))))) as [O|O]; [auto|]. right. unfold runMid.
    destruct (Rle_lt_dec (a + t * (b - a)) ((a + b) / 2)) as [L|L].
    + apply between_const; auto. intros z Hz. destruct (Req_dec z (a + t * (b - a))) as [->|]; [exact O|]. apply C. assert (0 <= t * (b - a)) by nra. lra.
    + symmetry. apply between_const; auto; [lra|]. intros z Hz. destruct (Req_dec z (a + t * (b - a))) as [->|]; [exact O|]. apply C. assert (t * (b - a) <= b - a) by nra. lra.
  - destruct R as (w & us & e & -> & Ha1 & Hb0 & Pw & Bw & P & Bu & Eu). destruct C as (C1 & C2 & C3). cbn [app] in Hin.
    (* the winding number at every vertex of the run *)
    set (W := getWindingNumber other). assert (EP : forall j t, seg pl (k + j) t = segPath (vert pl k j) (vert pl k (S j)) t) by (intros j t; unfold seg; now rewrite !vert_shift, Nat.add_0_r, Nat.add_1_r).
    assert (Vend : forall t, 0 <= t < b -> W (seg pl (k + S d') t) = W (runMid k a (S d') b)).
    { intros t Ht. unfold runMid. destruct (Rle_lt_dec t (b / 2)) as [L|L]; [|symmetry]; (apply between_const; [auto|lra|]; intros z Hz; apply C3; lra). }
    assert (Vert : forall i, (i <= d')%nat -> W (pos (vert pl k (S d' - i))) = W (runMid k a (S d') b)).
    { induction i as [|i IH]; intros Hi.
      - rewrite <- (Vend 0 ltac:(lra)). rewrite EP, segPath_0. rewrite Nat.sub_0_r. reflexivity.
      - rewrite <- IH by lia. replace (S d' - i)%nat with (S (S d' - S i)) by lia. set (j := (S d' - S i)%nat).
        assert (Hj : (1 <= j <= d')%nat) by (unfold j; lia).
        rewrite <- (segPath_0 (vert pl k j) (vert pl k (S j))), <- (segPath_1 (vert pl k j) (vert pl k (S j))). unfold W. apply between_const; [auto|lra|].
        intros z Hz. rewrite <- EP. apply C2; auto. }
    assert (Vert' : forall j, (1 <= j <= S d')%nat -> W (pos (vert pl k j)) = W (runMid k a (S d') b)) by (intros j Hj; replace j with (S d' - (S d' - j))%nat by lia; apply Vert; lia).
    assert (Hshape : (x = us /\ y = e) \/ (x = w /\ pos y = pos (vert pl k 1)) \/ exists j, (1 <= j < 1 + d')%nat /\ x = vert pl k j /\ pos y = pos (vert pl k (S j))).
    { assert (Hin' : In (x, y) (openSegs w (map (vert pl k) (seq 1 d') ++ [us; e]))).
      { destruct (map (vert pl k) (seq 1 d') ++ [us; e]) as [|z zs] eqn:Ez; [destruct (map (vert pl k) (seq 1 d')); discriminate|]. rewrite app_nil_r in Hin. exact Hin. }
      rewrite openSegs_snoc2 in Hin'. apply in_app_or in Hin'. destruct Hin' as [H|[E|[]]]; [right|left; injection E as <- <-; auto].
      apply (openSegs_verts k d' 1 w us) in H; [exact H|]. rewrite Eu. reflexivity. }
    apply onSeg_path in O. destruct O as (t & Ht & ->). destruct Hshape as [[-> ->]|[[-> Ey]|(j & Hj & -> & Ey)]].
    + rewrite (P t). replace (0 + t * (b - 0)) with (t * b) by ring. rewrite <- EP. assert (0 <= t * b <= 1) by nra. split; [apply seg_onPath; auto|].
      destruct (Req_dec t 1) as [->|Nt]; [|right; apply Vend; nra].
      destruct (Classical_Prop.classic (onPath other (seg pl (k + S d') (1 * b)))) as [O|O]; [auto|]. right. rewrite <- (Vend 0 ltac:(lra)). symmetry. unfold W. apply between_const; [auto|nra|].
      intros z Hz. destruct (Req_dec z (1 * b)) as [->|]; [exact O|]. apply C3. lra.
    + rewrite (segPath_end w y (vert pl k 1)) by auto. rewrite (Pw t). fold (seg pl k (a + t * (1 - a))). assert (0 <= a + t * (1 - a) <= 1) by nra. split; [apply seg_onPath; auto|].
      destruct (Classical_Prop.classic (onPath other (seg pl k (a + t * (1 - a))))) as [O|O]; [auto|]. right. rewrite <- (Vert' 1%nat) by lia. rewrite <- (segPath_1 (vert pl k 0) (vert pl k 1)). fold (seg pl k 1).
      unfold W. apply between_const; [auto|lra|]. intros z Hz. destruct (Req_dec z (a + t * (1 - a))) as [->|]; [exact O|]. apply C1. assert (0 <= t * (1 - a)) by nra. lra.
    + rewrite (segPath_end _ y (vert pl k (S j))) by auto. rewrite <- EP. split; [apply seg_onPath; auto|]. right. rewrite <- (Vert' j) by lia.
      rewrite <- (segPath_0 (vert pl k j) (vert pl k (S j))). rewrite EP. symmetry. unfold W. apply between_const; [auto|lra|]. intros z Hz. rewrite <- EP. apply C2; [lia|lra].
Qed.
End Trace.

Theorem stretch_run {SL : StdLib} {SLaws : StdLaws SL} (pl other : polyline) (cs : list (nat * slicePoint)) :
  let n := length (vertexes pl) in (2 <= n)%nat -> smallBulges pl -> sep pl cs ->
  (forall k c, In (k, c) cs -> (k < n)%nat /\ spStart c = false /\ exists t, 0 <= t <= 1 /\ spPos c = seg pl k t /\
    longArc (vert pl k 0) (vert pl k 1) (pos (vert pl k 0)) (spPos c) /\ longArc (vert pl k 0) (vert pl k 1) (spPos c) (pos (vert pl k 1))) ->
  (forall k c c', In (k, c) cs -> In (k, c') cs -> spPos c = spPos c' \/ (far (spPos c) (spPos c') /\ longArc (vert pl k 0) (vert pl k 1) (spPos c) (spPos c'))) ->
  (forall k q, (k < n)%nat -> onSeg (vert pl k 0) (vert pl k 1) q -> onPath other q -> In (k, mkSP q false) cs) ->
  forall k l, (k < n)%nat -> In l (stretches pl cs k) -> exists a d b, run pl k a d b l /\ (d <= n)%nat /\
  In (k, mkSP (seg pl k a) false) cs /\ In (((k + d) mod n)%nat, mkSP (seg pl (k + d) b) false) cs /\ clear pl other k a d b.
Proof. intros n H1 H2 H3 H4 H5 H6 k l Hk Hl. exact (stretch_runX pl (onPath other) cs H1 H2 H3 H4 H5 H6 k l Hk Hl). Qed.
