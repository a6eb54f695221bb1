(** * The points of the stretches of a polyline *)
From Coq Require Import ZArith Reals Lra Lia List Bool Arith Permutation Sorted.
From Verif Require Import Base Num MathUtils PlineSegment SpatialIndex Polyline Intersects Combine StdLaws RGeom Spec PropsMath ArcGeom Polar PropsSegment PropsClosest PropsIntr PropsPlineIntr PropsPolyline Turning PropsWinding PropsRegion PropsCoincident PropsSlices PropsPieces PropsTrace PropsPlineIndex PropsBoolOps PropsCover.
Import ListNotations.
Open Scope R_scope.

(** q is on the run from fraction a of segment k to fraction b of segment k + d *)
Definition onRun (pl : polyline) (k : nat) (a : R) (d : nat) (b : R) (q : vec) : Prop :=
  match d with
  | O => exists t, a <= t <= b /\ q = seg pl k t
  | S d' => (exists t, a <= t <= 1 /\ q = seg pl k t) \/ (exists e t, (1 <= e <= d')%nat /\ 0 <= t <= 1 /\ q = seg pl (k + e) t) \/ (exists t, 0 <= t <= b /\ q = seg pl (k + d) t)
  end.

Lemma openSegs_verts_in pl k d : forall i w z, pos z = pos (vert pl k (i + d)) ->
  (exists y, In (w, y) (openSegs w (map (vert pl k) (seq i d) ++ [z])) /\ pos y = pos (vert pl k i)) /\
  forall j, (i <= j < i + d)%nat -> exists y, In (vert pl k j, y) (openSegs w (map (vert pl k) (seq i d) ++ [z])) /\ pos y = pos (vert pl k (S j)).
Proof.
  induction d as [|d IH]; intros i w z Ez.
  - split; [|intros; lia]. exists z. cbn [seq map app openSegs]. rewrite Nat.add_0_r in Ez. split; [now left|auto].
  - cbn [seq map app openSegs]. replace (i + S d)%nat with (S i + d)%nat in Ez by lia. destruct (IH (S i) (vert pl k i) z Ez) as [(y & Hy & Ey) H]. split.
    + exists (vert pl k i). split; [now left|reflexivity].
    + intros j Hj. destruct (Nat.eq_dec j i) as [->|]; [exists y; split; [now right|auto]|]. destruct (H j ltac:(lia)) as (y' & Hy' & E'). exists y'. split; [now right|auto].
Qed.

Lemma run_onRun pl k a d b l q : (2 <= length (vertexes pl))%nat -> run pl k a d b l -> (onPath (mkPline false l) q <-> onRun pl k a d b q).
Proof.
  intros Hn (Ha & Hb & R). unfold onPath. rewrite pathSegs_open. destruct d as [|d'].
  - destruct R as (u & w & -> & Hab & P & _). cbn [segsOf openSegs onRun]. split.
    + intros (x & y & [E|[]] & O). injection E as <- <-. apply onSeg_path in O. destruct O as (t & Ht & ->). rewrite (P t). exists (a + t * (b - a)). split; [nra|reflexivity].
    + intros (t & Ht & ->). exists u, w. split; [now left|]. apply onSeg_path. exists ((t - a) / (b - a)).
      assert (E : (t - a) / (b - a) * (b - a) = t - a) by (field; lra). split.
      * split; [apply Rmult_le_pos; [lra|apply Rlt_le, Rinv_0_lt_compat; lra]|]. apply (Rmult_le_reg_r (b - a)); [lra|]. rewrite E. lra.
      * rewrite (P _), E. unfold seg. f_equal. lra.
  - destruct R as (w & us & e & -> & Ha1 & Hb0 & Pw & Bw & P & Bu & Eu). cbn [app segsOf]. rewrite openSegs_snoc2.
    assert (EP : forall j t, seg pl (k + j) t = segPath (vert pl k j) (vert pl k (S j)) t) by (intros j t; unfold seg; now rewrite !vert_shift, Nat.add_0_r, Nat.add_1_r).
    assert (Eu' : pos us = pos (vert pl k (1 + d'))) by (rewrite Eu; reflexivity). cbn [onRun]. split.
    + intros (x & y & Hin & O). apply onSeg_path in O. destruct O as (t & Ht & ->). apply in_app_or in Hin. destruct Hin as [H|[E|[]]].
      * apply (openSegs_verts pl Hn k d' 1 w us Eu') in H. destruct H as [[-> Ey]|(j & Hj & -> & Ey)].
        -- left. rewrite (segPath_end w y (vert pl k 1)) by auto. rewrite (Pw t). exists (a + t * (1 - a)). split; [nra|reflexivity].
        -- right. left. rewrite (segPath_end _ y (vert pl k (S j))) by auto. exists j, t. split; [lia|]. split; [auto|]. now rewrite EP.
      * injection E as <- <-. right. right. rewrite (P t). exists (t * b). split; [nra|]. rewrite EP. f_equal. ring.
    + destruct (openSegs_verts_in pl k d' 1 w us Eu') as [(y0 & H0 & E0) Hj]. intros [(t & Ht & ->)|[(j & t & Hj' & Ht & ->)|(t & Ht & ->)]].
      * exists w, y0. split; [apply in_or_app; now left|]. apply onSeg_path. exists ((t - a) / (1 - a)). assert (E : (t - a) / (1 - a) * (1 - a) = t - a) by (field; lra). split.
        -- split; [apply Rmult_le_pos; [lra|apply Rlt_le, Rinv_0_lt_compat; lra]|]. apply (Rmult_le_reg_r (1 - a)); [lra|]. rewrite E. lra.
        -- rewrite (segPath_end w y0 (vert pl k 1)) by auto. rewrite (Pw _), E. unfold seg. f_equal. lra.
      * destruct (Hj j ltac:(lia)) as (y & Hy & Ey). exists (vert pl k j), y. split; [apply in_or_app; now left|]. apply onSeg_path. exists t. split; [auto|]. rewrite (segPath_end _ y (vert pl k (S j))) by auto. apply EP.
      * exists us, e. split; [apply in_or_app; right; now left|]. apply onSeg_path. exists (t / b). assert (E : t / b * b = t) by (field; lra). split.
        -- split; [apply Rmult_le_pos; [lra|apply Rlt_le, Rinv_0_lt_compat; lra]|]. apply (Rmult_le_reg_r b); [lra|]. rewrite E. lra.
        -- rewrite (P _). replace (0 + t / b * (b - 0)) with t by (rewrite <- E at 1; ring). apply EP.
Qed.

(** the points of a run are on the polyline *)
Lemma run_on pl k a d b l q : (2 <= length (vertexes pl))%nat -> isClosed pl = true -> run pl k a d b l -> onPath (mkPline false l) q -> onPath pl q.
Proof.
  intros Hn Hc R H. apply (run_onRun _ _ _ _ _ _ _ Hn R) in H. destruct R as (Ha & Hb & _). destruct d; cbn [onRun] in H.
  - destruct H as (t & Ht & ->). apply seg_onPath; auto. lra.
  - destruct H as [(t & Ht & ->)|[(e & t & He & Ht & ->)|(t & Ht & ->)]]; apply seg_onPath; auto; lra.
Qed.

(** a run starts and ends at its fractions *)
Lemma run_ends pl k a d b l : run pl k a d b l -> pos (hd vdflt l) = seg pl k a /\ pos (last l vdflt) = seg pl (k + d) b /\ (2 <= length l)%nat /\ ((1 <= d)%nat -> (3 <= length l)%nat).
Proof.
  intros (_ & _ & R). destruct d.
  - destruct R as (u & w & -> & _ & P & _). cbn [hd last length]. rewrite Nat.add_0_r. split; [apply (piece_start _ _ _ _ _ _ P)|]. split; [apply (piece_end _ _ _ _ _ _ P)|]. lia.
  - destruct R as (w & us & e & -> & _ & _ & P & _ & P' & _). split; [apply (piece_start _ _ _ _ _ _ P)|]. split.
    + replace (last ([w] ++ map (vert pl k) (seq 1 d) ++ [us; e]) vdflt) with e.
      * rewrite (piece_end _ _ _ _ _ _ P'). unfold seg. now rewrite !vert_shift, Nat.add_0_r, Nat.add_1_r.
      * rewrite app_assoc. change [us; e] with ([us] ++ [e]). rewrite app_assoc, last_last. reflexivity.
    + rewrite !app_length. cbn [length]. lia.
Qed.

(** ** Every point of the polyline is on a stretch *)
Section Covers.
Context {SL : StdLib} {SLaws : StdLaws SL}.
Context (pl : polyline) (cs : list (nat * slicePoint)).
Let n := length (vertexes pl).
Hypothesis (Hn : (2 <= n)%nat) (Hc : isClosed pl = true) (Hsmall : smallBulges pl) (Hsep : sep pl cs).
Hypothesis Hcut : forall k c, In (k, c) cs -> (k < n)%nat /\ spStart c = false /\
  exists t, 0 <= t <= 1 /\ spPos c = seg pl k t /\
    longArc (vert pl k 0) (vert pl k 1) (pos (vert pl k 0)) (spPos c) /\ longArc (vert pl k 0) (vert pl k 1) (spPos c) (pos (vert pl k 1)).
Hypothesis Hpair : forall k c c', In (k, c) cs -> In (k, c') cs -> spPos c = spPos c' \/ (far (spPos c) (spPos c') /\ longArc (vert pl k 0) (vert pl k 1) (spPos c) (spPos c')).

Lemma between_covers k : (k < n)%nat -> forall ts a w t, cont pl k a w -> In (k, mkSP (seg pl k a) false) cs -> StronglySorted Rle (a :: ts) ->
  (forall t, In t ts -> 0 <= t <= 1 /\ In (k, mkSP (seg pl k t) false) cs) -> a <= t <= last ts a -> a < last ts a ->
  exists l, In l (between (vert pl k 1) w (mkSP (seg pl k a) false) (map (fun t => mkSP (seg pl k t) false) ts)) /\ onPath (mkPline false l) (seg pl k t).
Proof.
  intros Hk. induction ts as [|b ts IH]; intros a w t Hw Ha Hs Ht Hat Hlt; [cbn in Hlt; lra|].
  cbn [map between]. apply StronglySorted_inv in Hs. destruct Hs as [Hs Hf].
  destruct (Ht b (or_introl eq_refl)) as [Hb01 Hb]. assert (Hab : a <= b) by (rewrite List.Forall_forall in Hf; apply Hf; now left).
  destruct (next_cont pl cs Hn Hsep Hcut Hpair k a b w Hw ltac:(lra) Hb Ha) as (Cb & Pb & Bb & E1 & E2). cbv zeta in *. cbn [spPos spStart orb]. set (s := splitAtPoint w (vert pl k 1) (seg pl k b)) in *.
  assert (El : last (b :: ts) a = last ts b). { clear. destruct ts as [|c l]; [reflexivity|]. change (last (b :: c :: l) a) with (last (c :: l) a). revert c. induction l as [|d l IH]; intros c; [reflexivity|apply (IH d)]. }
  rewrite El in Hat, Hlt. assert (Hlast : b <= last ts b) by (apply (last_le ts b b Hs); now left).
  destruct (Rlt_le_dec a b) as [Lab|Lab]; [destruct (Rle_lt_dec t b) as [Ltb|Ltb]|].
  - exists [updatedStart s; splitVertex s]. split.
    + rewrite E1, E2, prec_R. replace (fuzzyEqual (seg pl k a) (seg pl k b) (1 / 100000)) with false; [apply in_or_app; left; now left|]. symmetry. apply far_fuzzy.
      destruct (Hpair _ _ _ Ha Hb) as [E|[F _]]; cbn [spPos] in *; [|exact F]. apply segPath_inj in E; [lra|apply (vert_small pl Hn Hsmall)|apply far_ne, (vert_far pl cs Hn Hsep)|destruct Hw; lra|auto].
    + apply (run_onRun pl k a 0 b); [exact Hn| |]. { split; [destruct Hw; lra|]. split; [lra|]. exists (updatedStart s), (splitVertex s). auto. } exists t. split; [lra|reflexivity].
  - destruct (IH b (splitVertex s) t Cb Hb Hs (fun t H => Ht t (or_intror H)) ltac:(lra) ltac:(lra)) as (l & Hl & Ol). exists l. split; [apply in_or_app; now right|auto].
  - assert (a = b) by lra. subst b. destruct (IH a (splitVertex s) t Cb Hb Hs (fun t H => Ht t (or_intror H)) ltac:(lra) ltac:(lra)) as (l & Hl & Ol). exists l. split; [apply in_or_app; now right|auto].
Qed.

(** a point after the last cut of segment k and before the next cut *)
Lemma onward_covers k c q : (k < n)%nat -> In c (sortedCuts pl cs k) -> exists z d b, In (k, mkSP (seg pl k z) false) cs /\ 0 <= z <= 1 /\ (1 <= d <= n)%nat /\
  (forall t, In (k, mkSP (seg pl k t) false) cs -> 0 <= t <= 1 -> t <= z) /\
  (forall e, (1 <= e < d)%nat -> sortedCuts pl cs ((k + e) mod n) = []) /\ In (((k + d) mod n)%nat, mkSP (seg pl (k + d) b) false) cs /\ 0 <= b <= 1 /\
  (forall t, In (((k + d) mod n)%nat, mkSP (seg pl (k + d) t) false) cs -> 0 <= t <= 1 -> b <= t) /\
  (onRun pl k z d b q -> exists l, In l (stretches pl cs k) /\ onPath (mkPline false l) q).
Proof.
  intros Hk Hc0. destruct (cut_params pl cs Hn Hsmall Hsep Hcut k) as (ts & Es & Hs & Ht). destruct ts as [|a ts]; [rewrite Es in Hc0; destruct Hc0|].
  set (z := last ts a). assert (Hz : In z (a :: ts)) by apply last_In. destruct (Ht z Hz) as [Hz01 Hzc]. pose proof (param_lt pl cs Hn Hsep k z Hz01 Hzc) as Lz.
  destruct (find_least (fun d => match sortedCuts pl cs ((k + d) mod n) with [] => false | _ :: _ => true end) n 1) as (d & Ed & Hd & HPd & Hfd).
  { exists n. split; [apply in_seq; lia|]. rewrite mod_shift by lia. rewrite Nat.mod_small by auto. now rewrite Es. }
  set (k' := ((k + d) mod n)%nat) in *. assert (Hk' : (k' < n)%nat) by (apply Nat.mod_upper_bound; lia). cbv beta in HPd. fold k' in HPd.
  destruct (cut_params pl cs Hn Hsmall Hsep Hcut k') as (ts' & Es' & Hs' & Ht'). rewrite Es' in HPd. destruct ts' as [|b ts']; [discriminate|]. destruct (Ht' b (or_introl eq_refl)) as [Hb01 Hb].
  pose proof (param_lt pl cs Hn Hsep k' b Hb01 Hb) as Lb.
  assert (Inj : forall j s t, 0 <= s <= 1 -> 0 <= t <= 1 -> seg pl j s = seg pl j t -> s = t).
  { intros j s t H1 H2 E. unfold seg in E. apply segPath_inj in E; auto; [apply (vert_small pl Hn Hsmall)|apply far_ne, (vert_far pl cs Hn Hsep)]. }
  assert (Em : forall t, seg pl (k + d) t = seg pl k' t) by (intros t; unfold k'; now rewrite (seg_mod pl Hn)).
  exists z, d, b. split; [exact Hzc|]. split; [exact Hz01|]. split; [lia|]. split; [|split; [|split; [|split; [exact Hb01|split]]]].
  - intros t Hin Ht01. apply (sortedCuts_In pl) in Hin. rewrite Es in Hin. apply in_map_iff in Hin. destruct Hin as (t' & E & Hin). injection E as E. apply Inj in E; [|now apply Ht|auto]. subst t'. now apply last_le.
  - intros e He. specialize (Hfd e ltac:(lia)). cbv beta in Hfd. destruct (sortedCuts pl cs ((k + e) mod n)); [auto|discriminate].
  - rewrite Em. exact Hb.
  - intros t Hin Ht01. rewrite Em in Hin. fold k' in Hin. apply (sortedCuts_In pl) in Hin. rewrite Es' in Hin. apply in_map_iff in Hin. destruct Hin as (t' & E & Hin). injection E as E. apply Inj in E; [|now apply Ht'|auto]. subst t'.
    apply StronglySorted_inv in Hs'. destruct Hs' as [_ F]. rewrite List.Forall_forall in F. destruct Hin as [->|Hin]; [lra|auto].
  - intros Oq. unfold stretches. rewrite Es. cbn [map]. destruct (first_cont pl cs Hn Hsmall Hsep Hcut k z Hzc Hz01) as (Cz & _). cbv zeta in Cz. destruct Cz as (_ & Pz & Bz & _).
    destruct (first_cont pl cs Hn Hsmall Hsep Hcut k' b Hb Hb01) as (_ & Pb & Bb & Eb1 & Eb2). cbv zeta in Pb, Bb, Eb1, Eb2.
    assert (Ev0 : vert pl k' 0 = vert pl k d) by (unfold k'; rewrite (vert_mod pl Hn), vert_shift, Nat.add_0_r; reflexivity).
    assert (Ev1 : vert pl k' 1 = vert pl k (S d)) by (unfold k'; rewrite (vert_mod pl Hn), vert_shift, Nat.add_1_r; reflexivity).
    rewrite (last_map (fun t => mkSP (seg pl k t) false) ts a). fold z. unfold onward. cbn [spStart spPos]. fold n. rewrite Ed. fold k'. rewrite Es'. cbn [map].
    eexists. split; [apply in_or_app; right; left; reflexivity|]. cbn [spPos]. rewrite <- Ev0, <- Ev1. revert Oq. apply (run_onRun pl k z d b); [exact Hn|].
    split; [lra|]. split; [lra|]. destruct d as [|d']; [lia|]. do 3 eexists. split; [replace (S d' - 1)%nat with d' by lia; reflexivity|]. split; [lra|]. split; [lra|]. split; [exact Pz|]. split; [exact Bz|].
    rewrite <- Ev0, <- Ev1. split; [|split; [exact Bb|exact Eb1]]. intros s. rewrite <- (Pb s). apply segPath_end. cbn [pos]. symmetry. exact Eb2.
Qed.

Theorem stretches_cover q : (exists k c, In (k, c) cs) -> onPath pl q -> exists k l, (k < n)%nat /\ In l (stretches pl cs k) /\ onPath (mkPline false l) q.
Proof.
  intros (k0 & c0 & H0) (v1 & v2 & Hp & Oq). destruct (at_seg pl v1 v2 Hc Hp) as (k & Hk & -> & ->). fold n in Hk. apply onSeg_path in Oq. destruct Oq as (t & Ht & Eq).
  assert (Eq' : q = seg pl k t) by exact Eq. clear Eq. subst q.
  destruct (Classical_Prop.classic (exists a, In (k, mkSP (seg pl k a) false) cs /\ 0 <= a <= t)) as [(a0 & Ha0 & Hat)|No].
  - (* some cut before *)
    pose proof (proj2 (sortedCuts_In pl cs k _) Ha0) as Hin.
    destruct (onward_covers k _ (seg pl k t) Hk Hin) as (z & d & b & Hz & Hz01 & Hd & Hmax & _ & _ & _ & _ & Hcov).
    destruct (Rle_lt_dec z t) as [L|L].
    + destruct Hcov as (l & Hl & Ol); [|exists k, l; auto]. destruct d as [|d]; [lia|]. left. exists t. split; [lra|reflexivity].
    + destruct (cut_params pl cs Hn Hsmall Hsep Hcut k) as (ts & Es & Hs & Hts). rewrite Es in Hin. destruct ts as [|a ts]; [destruct Hin|].
      assert (Inj : forall s t, 0 <= s <= 1 -> 0 <= t <= 1 -> seg pl k s = seg pl k t -> s = t).
      { intros s u H1 H2 E. unfold seg in E. apply segPath_inj in E; auto; [apply (vert_small pl Hn Hsmall)|apply far_ne, (vert_far pl cs Hn Hsep)]. }
      assert (Get : forall u, In (k, mkSP (seg pl k u) false) cs -> 0 <= u <= 1 -> In u (a :: ts)).
      { intros u Hu Hu1. apply (sortedCuts_In pl) in Hu. rewrite Es in Hu. apply in_map_iff in Hu. destruct Hu as (u' & E & Hu'). injection E as E. apply Inj in E; [|now apply Hts|auto]. now subst. }
      pose proof (Get a0 Ha0 ltac:(lra)) as Ia0. pose proof (Get z Hz Hz01) as Iz. pose proof (last_le ts a z Hs Iz) as Lz. destruct (Hts a (or_introl eq_refl)) as [Ha01 Ha].
      assert (Laa : a <= a0). { apply StronglySorted_inv in Hs. destruct Hs as [_ F]. rewrite List.Forall_forall in F. destruct Ia0 as [<-|I0]; [lra|auto]. }
      destruct (first_cont pl cs Hn Hsmall Hsep Hcut k a Ha Ha01) as (Ca & _). cbv zeta in Ca.
      destruct (between_covers k Hk ts a _ t Ca Ha Hs (fun u H => Hts u (or_intror H)) ltac:(lra) ltac:(lra)) as (l & Hl & Ol).
      exists k, l. split; [auto|]. split; [|auto]. unfold stretches. rewrite Es. cbn [map]. apply in_or_app. left. exact Hl.
  - (* go back to a segment with cuts *)
    destruct (Hcut k0 c0 H0) as (Hk0 & _).
    destruct (find_least (fun e => match sortedCuts pl cs ((k + n - e) mod n) with [] => false | _ :: _ => true end) n 1) as (e & _ & He & HPe & Hfe).
    { set (e0 := if (k0 <? k)%nat then (k - k0)%nat else (k + n - k0)%nat). exists e0.
      assert (He0 : (1 <= e0 <= n)%nat) by (unfold e0; destruct (Nat.ltb_spec k0 k); lia). split; [apply in_seq; lia|].
      assert (E0 : ((k + n - e0) mod n = k0)%nat).
      { unfold e0. destruct (Nat.ltb_spec k0 k); [replace (k + n - (k - k0))%nat with (k0 + n)%nat by lia; rewrite mod_shift by lia; now apply Nat.mod_small|].
        replace (k + n - (k + n - k0))%nat with k0 by lia. now apply Nat.mod_small. }
      rewrite E0. apply (sortedCuts_In pl) in H0. destruct (sortedCuts pl cs k0); [destruct H0|reflexivity]. }
    cbv beta in HPe. set (k' := ((k + n - e) mod n)%nat) in *. assert (Hk' : (k' < n)%nat) by (apply Nat.mod_upper_bound; lia).
    destruct (sortedCuts pl cs k') as [|c cl] eqn:Ec; [discriminate|].
    assert (Hmod : forall x, (x <= e)%nat -> ((k' + x) mod n = (k + n - (e - x)) mod n)%nat).
    { intros x Hx. unfold k'. rewrite Nat.add_mod_idemp_l by lia. f_equal. lia. }
    destruct (onward_covers k' c (seg pl k t) Hk' ltac:(rewrite Ec; now left)) as (z & d & b & Hz & Hz01 & Hd & _ & Hno & Hb & Hb01 & Hmin & Hcov).
    assert (Hed : (e <= d)%nat).
    { destruct (le_lt_dec e d); [auto|]. exfalso. specialize (Hfe (e - d)%nat ltac:(lia)). cbv beta in Hfe. rewrite Hmod in Hb by lia. apply (sortedCuts_In pl) in Hb.
      destruct (sortedCuts pl cs ((k + n - (e - d)) mod n)); [destruct Hb|discriminate]. }
    assert (Eke : ((k' + e) mod n = k)%nat) by (rewrite Hmod, Nat.sub_diag, Nat.sub_0_r, mod_shift by lia; now apply Nat.mod_small).
    assert (Es : forall u, seg pl (k' + e) u = seg pl k u) by (intros u; rewrite <- (seg_mod pl Hn (k' + e)%nat); fold n; now rewrite Eke).
    destruct Hcov as (l & Hl & Ol); [|exists k', l; auto]. destruct d as [|d']; [lia|]. cbn [onRun]. destruct (Nat.eq_dec e (S d')) as [E|N].
    + right. right. exists t. rewrite <- E. split; [|symmetry; apply Es]. split; [lra|]. apply Rnot_lt_le. intros L. apply No. exists b. rewrite <- E in Hb. rewrite Es in Hb. fold n in Hb. rewrite Eke in Hb. split; [auto|lra].
    + right. left. exists e, t. split; [lia|]. split; [auto|]. symmetry. apply Es.
Qed.
End Covers.

(** ** Properties that cannot change away from marked points do not change along a run *)
Section Const.
Context (pl : polyline) (X P : vec -> Prop).
Variable good : nat -> Prop.
Hypothesis Hloc : forall k s t, good k -> 0 <= s -> s <= t -> t <= 1 -> (forall x, s <= x <= t -> ~ X (seg pl k x)) -> (P (seg pl k s) <-> P (seg pl k t)).

Theorem run_const k a d b q : (forall e, (e <= d)%nat -> good (k + e)%nat) -> 0 <= a <= 1 -> 0 <= b <= 1 -> (d = 0%nat -> a < b) -> ((1 <= d)%nat -> a < 1 /\ 0 < b) -> clearOf pl X k a d b -> onRun pl k a d b q -> ~ X q -> (P q <-> P (runMid pl k a d b)).
Proof.
  intros G Ha Hb H0 H1 C O Nq. assert (G0 : good k) by (rewrite <- (Nat.add_0_r k); apply G; lia). destruct d as [|d'].
  - cbn [onRun clearOf runMid] in *. destruct O as (t & Ht & ->). specialize (H0 eq_refl). destruct (Rle_lt_dec t ((a + b) / 2)) as [L|L]; [|symmetry]; apply Hloc; try lra; try (apply G; lia); try exact G0; intros x Hx;
      (destruct (Req_dec x t) as [->|]; [exact Nq|]; apply C; lra).
  - cbn [clearOf runMid] in *. destruct (H1 ltac:(lia)) as [Ha1 Hb0]. destruct C as (C1 & C2 & C3).
    assert (EP : forall j, seg pl (k + j) 1 = seg pl (k + S j) 0).
    { intros j. unfold seg. rewrite segPath_1, segPath_0. f_equal. rewrite !vert_shift. f_equal. lia. }
    assert (Vend : forall t, 0 <= t < b -> (P (seg pl (k + S d') t) <-> P (seg pl (k + S d') (b / 2)))).
    { intros t Ht. destruct (Rle_lt_dec t (b / 2)) as [L|L]; [|symmetry]; apply Hloc; try lra; try (apply G; lia); try exact G0; intros x Hx; apply C3; lra. }
    assert (Vert : forall i, (i <= d')%nat -> (P (seg pl (k + (S d' - i)) 0) <-> P (seg pl (k + S d') (b / 2)))).
    { induction i as [|i IH]; intros Hi; [rewrite Nat.sub_0_r; apply Vend; lra|]. rewrite <- IH by lia. replace (S d' - i)%nat with (S (S d' - S i)) by lia. rewrite <- EP.
      apply Hloc; try lra; try (apply G; lia); try exact G0. intros x Hx. apply C2; [lia|lra]. }
    cbn [onRun] in O. destruct O as [(t & Ht & ->)|[(e & t & He & Ht & ->)|(t & Ht & ->)]].
    + rewrite <- (Vert d') by lia. replace (S d' - d')%nat with 1%nat by lia. rewrite <- EP, Nat.add_0_r. apply Hloc; try lra; try (apply G; lia); try exact G0. intros x Hx. destruct (Req_dec x t) as [->|]; [exact Nq|]. apply C1. lra.
    + rewrite <- (Vert (S d' - e)%nat) by lia. replace (S d' - (S d' - e))%nat with e by lia. symmetry. apply Hloc; try lra; try (apply G; lia); try exact G0. intros x Hx. apply C2; [lia|lra].
    + destruct (Req_dec t b) as [->|Nb]; [|apply Vend; lra]. symmetry. apply Hloc; try lra; try (apply G; lia); try exact G0. intros x Hx. destruct (Req_dec x b) as [->|]; [exact Nq|]. apply C3. lra.
Qed.
End Const.
